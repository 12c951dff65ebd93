(** Vocabulary for C41, C61 and C62; the types are the ones of BirthModel.v. *)
From Coq Require Import List Arith.
From Verif Require Import Base BirthModel.
Import ListNotations.

(** Number of measurements that support the candidates. *)
Definition total (l : list nat) : nat := fold_right plus 0 l.

(** l = before ++ x :: after with no element of before satisfying P: x is the first that does. *)
Definition first_with {A : Type} (P : A -> Prop) (l before : list A) (x : A) (after : list A) : Prop :=
  l = before ++ x :: after /\ P x /\ forall y, In y before -> ~ P y.

(** Candidates a finished call may leave in the list. *)
Definition waiting (T : Type) (cntT chkT : nat) (c : cand T) : Prop :=
  1 <= nsup T c < cntT /\ 1 <= nchk T c <= chkT.

(** The scan of one particle in consecutive calls without measurement; the list gives the number
    of visible landmarks at each. *)
Fixpoint scans (T : Type) (cntT chkT curT : nat) (fovs : list nat) (l : list (cand T)) : outcome (list (cand T)) :=
  match fovs with
  | [] => Val l
  | f :: r => let* s := scan T cntT chkT curT f l in scans T cntT chkT curT r (fst s)
  end.

(** Slot s with the measurements and candidates of slot p. *)
Definition inherit (T : Type) (s p : slot T) : slot T := SL T (sunused T p) (scands T p) (sfov T s) (sadded T s) (sparent T s).

(** Updates list valid measurement numbers and existing parents; an update with no measurement
    only comes when all births of the last one have been handled. *)
Fixpoint orderly (n : nat) (pending : bool) (es : list event) : Prop :=
  match es with
  | [] => True
  | Update nz obs parents :: r =>
    length obs = n /\ (nz = 0 -> pending = false) /\
    (forall u f z, In (u, f) obs -> In z u -> z < nz) /\
    (forall ps, parents = Some ps -> length ps = n /\ forall p, In p ps -> p < n) /\
    orderly n (if nz =? 0 then pending else true) r
  | Predict :: r => orderly n false r
  end.

