(** Vocabulary for the gradients of RFSCeresSLAM (C96-C98). *)
From Coq Require Import Reals ZArith List Bool Arith Permutation Sorted.
From Verif Require Import SensorModel PartitionSpec CeresGradModel.
Import ListNotations.
Local Open Scope R_scope.

(** Sum over a list. *)
Definition rsum {X : Type} (f : X -> R) (l : list X) : R := fold_right (fun x s => f x + s) 0 l.

(** ** Associations inside a block with landmarks [il] and measurements [jl]
    An assignment gives every landmark a column: column c < length jl is measurement nth c jl, column
    length jl + r means that landmark r is missed. *)
Definition pairs (il jl a : list nat) : list (nat * nat) :=
  flat_map (fun rc => if (snd rc <? length jl)%nat then [(fst rc, nth (snd rc) jl 0%nat)] else []) (combine il a).

(** An association that the table allows: a landmark without measurement is missed (its own column), a
    measurement without landmark is an outlier (its own row), and every pair has a finite entry. *)
Definition proper (ent : nat -> nat -> option R) (il jl a : list nat) : Prop :=
  length a = (length il + length jl)%nat /\
  (forall r c, nth_error a r = Some c ->
     (r < length il)%nat -> (length jl <= c)%nat -> c = (length jl + r)%nat) /\
  (forall r c, nth_error a r = Some c -> (length il <= r)%nat -> (c < length jl)%nat -> r = (length il + c)%nat) /\
  (forall m n, In (m, n) (pairs il jl a) -> ent m n <> None).

(** Its score: the sum of the entries of its pairs. *)
Definition score (ent : nat -> nat -> option R) (il jl a : list nat) : R :=
  rsum (fun p => match ent (fst p) (snd p) with Some x => x | None => 0 end) (pairs il jl a).

(** The results of Murty's algorithm for a block: at most 201, in order of the sum of the entries of
    the extended table, the first of them proper; [H] are the proper ones, all with a score above -1000. *)
Definition ranked (ent : nat -> nat -> option R) (il jl : list nat) (outs H : list (list nat)) : Prop :=
  (length outs <= 201)%nat /\
  Forall (fun a => length a = (length il + length jl)%nat) outs /\
  StronglySorted (fun a b => g_score ent il jl 0 b <= g_score ent il jl 0 a) outs /\
  (exists first rest, outs = first :: rest /\ proper ent il jl first) /\
  (exists dead, Permutation outs (H ++ dead) /\ Forall (proper ent il jl) H /\ Forall (fun a => ~ proper ent il jl a) dead) /\
  (forall a, In a H -> -1000 < score ent il jl a).

Definition b_rows (b : list nat * list nat * bool) : list nat := fst (fst b).
Definition b_cols (b : list nat * list nat * bool) : list nat := snd (fst b).
Definition b_flag (b : list nat * list nat * bool) : bool := snd b.

(** The same for all blocks that are not the zero block. *)
Definition all_ranked (ent : nat -> nat -> option R) (bl : list (list nat * list nat * bool))
    (kb Hs : list (list (list nat))) : Prop :=
  length kb = length bl /\ length Hs = length bl /\
  forall i b k H, nth_error bl i = Some b -> nth_error kb i = Some k -> nth_error Hs i = Some H ->
    b_flag b = true -> ranked ent (b_rows b) (b_cols b) k H.

(** The blocks of a table with nR landmarks and nC measurements: they divide both, and the members of a
    block that is not the zero block are connected by finite entries. *)
Definition fin (ent : nat -> nat -> option R) (m n : nat) : Z := match ent m n with Some _ => 1%Z | None => 0%Z end.
Definition blocks_of (ent : nat -> nat -> option R) (nR nC : nat) (bl : list (list nat * list nat * bool)) : Prop :=
  Permutation (flat_map b_rows bl) (seq 0 nR) /\ Permutation (flat_map b_cols bl) (seq 0 nC) /\
  forall b u v, In b bl -> b_flag b = true -> inside (b_rows b, b_cols b) u -> inside (b_rows b, b_cols b) v ->
    connected (fin ent) 0 nR nC u v.

(** No measurement is known to belong to a landmark, or the origin of every measurement is known. *)
Definition settled (da : nat -> Z) (nZ : nat) : Prop :=
  (forall n, (n < nZ)%nat -> da n = (-1)%Z \/ da n = (-2)%Z) \/ (forall n, (n < nZ)%nat -> da n <> (-1)%Z).

(** No measurement of a block is known to belong to something else than a landmark of the block it is
    compared with. *)
Definition free (da : nat -> Z) (bl : list (list nat * list nat * bool)) : Prop :=
  forall b m n, In b bl -> b_flag b = true -> In m (b_rows b) -> In n (b_cols b) ->
    da n = (-1)%Z \/ da n = Z.of_nat m.

(** The logarithm of the sum over the associations of a block. *)
Definition log_sum (ent : nat -> nat -> option R) (il jl : list nat) (H : list (list nat)) : R :=
  ln (rsum (fun a => exp (score ent il jl a)) H).

(** Gradient of the score of an association by landmark m, and by the pose. *)
Definition lm_sum (L : nat -> nat -> vec) (m : nat) (ps : list (nat * nat)) : vec :=
  fun d => rsum (fun p => if (fst p =? m)%nat then L (fst p) (snd p) d else 0) ps.
Definition ps_sum (S : nat -> nat -> vec) (ps : list (nat * nat)) : vec :=
  fun d => rsum (fun p => S (fst p) (snd p) d) ps.

(** With the best association f: the weights relative to it, and how much the derivative in direction w
    of the logarithm of the sum falls short of the sum of the relative weights times the differences of
    the derivatives. *)
Definition excess (ent : nat -> nat -> option R) (S : nat -> nat -> vec) (D : nat) (w : vec) (il jl : list nat)
    (H : list (list nat)) (f : list nat) : R :=
  (1 - / rsum (fun a => exp (score ent il jl a - score ent il jl f)) H) *
  rsum (fun a => exp (score ent il jl a - score ent il jl f) *
    (dot D (ps_sum S (pairs il jl a)) w - dot D (ps_sum S (pairs il jl f)) w)) H.

(** The best associations of the blocks that are not the zero block. *)
Definition best_of (ent : nat -> nat -> option R) (bl : list (list nat * list nat * bool)) (Hs : list (list (list nat))) (Fs : list (list nat)) : Prop :=
  length Fs = length bl /\
  forall i b H f, nth_error bl i = Some b -> nth_error Hs i = Some H -> nth_error Fs i = Some f -> b_flag b = true ->
    In f H /\ forall a, In a H -> score ent (b_rows b) (b_cols b) a <= score ent (b_rows b) (b_cols b) f.
