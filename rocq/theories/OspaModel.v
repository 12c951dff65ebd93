(** Model of OSPA (include/OSPA.hpp) and COLA (include/COLA.hpp).

    Simplifications.  Distances and the cut-off are unbounded integers (multiples of some
    unit), as in the model of the Hungarian method; the order p is a natural number.  The
    p-th root in the last line of calcError is not taken: the model returns the p-th power of
    the error as an exact rational, which for p = 1 is the error itself.  A quotient with
    denominator zero (NaN or infinity in C++) is the outcome DivByZero. *)
From Coq Require Import ZArith List Bool Arith QArith Qcanon.
From Verif Require Import Base ListUtil QcLra HungarianModel.
Import ListNotations.
Local Open Scope Z_scope.

(** Members c_, C_, n1_, n2_, n_, soln_, include/OSPA.hpp:112-119. *)
Record ospa := OSPA { oc : Z; oC : mat; on1 : nat; on2 : nat; on : nat; osoln : list nat }.

Section Metric.
Context {A : Type}.
Variable d : A -> A -> Z.   (* the function pointer distance *)

(** Entry of the cost matrix, include/OSPA.hpp:141-163; resize leaves zeros. *)
Definition entry (c : Z) (X Y : list A) (i j : nat) : Z :=
  let n1 := length X in let n2 := length Y in let n := Nat.max n1 n2 in
  if ((n1 <? n) && (n1 <=? i))%nat then c
  else if (negb (n1 <? n) && (n2 <? n) && (n2 <=? j))%nat then c
  else match nth_error X i, nth_error Y j with
       | Some x, Some y => if c <? d x y then c else d x y
       | _, _ => 0
       end.

(** Constructor, include/OSPA.hpp:125-178.  The return value of run is ignored; if it were
    false the array soln_ would stay uninitialised. *)
Definition construct (c : Z) (X Y : list A) : outcome ospa :=
  let n1 := length X in let n2 := length Y in let n := Nat.max n1 n2 in
  let* r := hungarian (entry c X Y) n false in
  match snd r with
  | None => UB Uninit
  | Some (soln, _) => Val (OSPA c (fst r) n1 n2 n soln)
  end.
End Metric.

(** Local variables of calcError: cost_, *e_dist, *e_card, include/OSPA.hpp:186-200. *)
Record errs := ERR { esum : Z; edist : Z; ecard : Z }.

(** Loop body of calcError, include/OSPA.hpp:193-199; [wd], [wc]: the pointers e_dist and
    e_card are not null. *)
Definition err_step (o : ospa) (p : nat) (wd wc : bool) (e : errs) (i : nat) : outcome errs :=
  match nth_error (osoln o) i with
  | None => UB OutOfBounds
  | Some j =>
    let v := oC o i j in
    let s := esum e + v ^ Z.of_nat p in
    if (v =? oc o) && wc then Val (ERR s (edist e) (ecard e + v))
    else if wd then Val (ERR s (edist e + v) (ecard e))
    else Val (ERR s (edist e) (ecard e))
  end.

(** OSPA::calcError, include/OSPA.hpp:183-204: p-th power of the error, *e_dist, *e_card. *)
Definition calcError (o : ospa) (p : nat) (wd wc : bool) : outcome (Qc * Z * Z) :=
  let* e := fold_left (fun r i => let* e := r in err_step o p wd wc e i) (seq 0 (on o)) (Val (ERR 0 0 0)) in
  if Nat.eqb (on o) 0 then UB DivByZero
  else Val ((QcZ (esum e) / QcN (on o))%Qc, edist e, ecard e).

(** COLA::calcError, include/COLA.hpp:93-101: p-th power of the error. *)
Definition colaError (o : ospa) (p : nat) (wd wc : bool) : outcome (Qc * Z * Z) :=
  let* r := calcError o p wd wc in
  if oc o =? 0 then UB DivByZero
  else Val ((fst (fst r) * QcN (on o) / QcZ (oc o ^ Z.of_nat p))%Qc, snd (fst r), snd r).

(** getOptAssignment( set1Idx, &cost ), include/OSPA.hpp:233-246: -1 is None, otherwise the
    column and *cost. *)
Definition getOptAssignment (o : ospa) (i : nat) : outcome (option (nat * Z)) :=
  if (on1 o <=? i)%nat then Val None
  else match nth_error (osoln o) i with
       | None => UB OutOfBounds
       | Some j => if (on2 o <=? j)%nat then Val None else Val (Some (j, oC o i j))
       end.

(** The calls of a user, src/examples/ospaError.cpp:155-157: construct, then
    calcError( &e_dist, &e_card ). *)
Definition ospaError {A : Type} (d : A -> A -> Z) (c : Z) (p : nat) (X Y : list A) : outcome Qc :=
  let* o := construct d c X Y in let* r := calcError o p true true in Val (fst (fst r)).

(** The same with COLA, src/analysis2dSim.cpp:246-247. *)
Definition colaErr {A : Type} (d : A -> A -> Z) (c : Z) (p : nat) (X Y : list A) : outcome Qc :=
  let* o := construct d c X Y in let* r := colaError o p true true in Val (fst (fst r)).
