(** Vocabulary for C176 and C177. *)
From Coq Require Import ZArith List Bool Arith QArith Qcanon.
From Verif Require Import QcLra PermanentSpec LexSpec RfsSpec.
Import ListNotations.
Local Open Scope Qc_scope.

(** The table of a scan with a likelihood [g] for every landmark and measurement, detection probabilities
    [pd] and what is known of the origin of measurement n: -1 nothing, -2 an outlier, m landmark m.
    Entries less than [thr] count as zero. *)
Definition gate (thr x : Qc) : Qc := if Qcltb x thr then 0 else x.
Definition table (g : nat -> nat -> Qc) (pd : nat -> Qc) (da : nat -> Z) (thr : Qc) (m n : nat) : Qc :=
  if (da n =? -1)%Z then gate thr (g m n * pd m) else if (da n =? Z.of_nat m)%Z then gate thr (g m n) else 0.
Definition origin_clutter (clu : nat -> Qc) (da : nat -> Z) (n : nat) : Qc :=
  if (da n =? -1)%Z then clu n else if (da n =? -2)%Z then 1 else 0.

(** The mean of [f] over the association hypotheses, weighted with [hyp_weight]; their sum is positive. *)
Definition mean (nM nZ : nat) (L : nat -> nat -> Qc) (pd cl : nat -> Qc) (f : list nat -> Qc) (v : Qc) : Prop :=
  exists hs, NoDup hs /\ (forall h, In h hs <-> association nM nZ true h) /\
  0 < qsum (map (hyp_weight nM nZ L pd cl) hs) /\
  v * qsum (map (hyp_weight nM nZ L pd cl) hs) = qsum (map (fun h => hyp_weight nM nZ L pd cl h * f h) hs).

(** What hypothesis h yields for landmark m: G at its measurement, nothing if it is missed; and for all
    landmarks together. *)
Definition gain (nZ : nat) (G : nat -> nat -> Qc) (m : nat) (h : list nat) : Qc :=
  if Nat.ltb (nth m h 0%nat) nZ then G m (nth m h 0%nat) else 0.
Definition gains (nM nZ : nat) (G : nat -> nat -> Qc) (h : list nat) : Qc :=
  qsum (map (fun m => gain nZ G m h) (seq 0 nM)).

(** All components of the table are small enough for all hypotheses to be considered. *)
Definition tractable (L : nat -> nat -> Qc) (pd cl : nat -> Qc) (nM nZ : nat) : Prop :=
  forall il jl, component L nM nZ il jl -> (length il + length jl <= 8)%nat \/ few 200 L pd cl il jl.
