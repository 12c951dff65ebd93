(** Where the landmarks of the PHD filter come from. *)
From Coq Require Import ZArith QArith Qcanon List Bool Arith Lia.
From Verif Require Import Base QcLra ParticleModel RbRunModel WeighModel WeighSpec WeighProofs3 BirthModel PhdRunModel PhdRunSpec PhdRunProperties PhdOriginSpec PhdRunProofs7.
Import ListNotations.
Local Open Scope Qc_scope.

(** ** C203: every landmark of the map of any particle, at any point of a run, goes back to measurements received: placed by the
    inverse measurement, then corrected by measurements inside the gate, moved and merged.  None comes from an uninitialised table
    entry or from nothing. *)
Theorem C203_origin : forall {Pose M T} (sn : hsensor Pose M T) cf o, sort_contract (xSort o) ->
  forall g0 c n x0 ks s, hrun sn cf o g0 c (hf_new n x0) ks = Val s ->
  forall p mix lm w, In p (pset (rpf (hRb s))) -> pdata p = Some mix -> In (lm, w) mix -> hfrom sn cf o ks lm.
Proof. intros Pose M T sn cf o Hso g0 c n x0 ks s. exact (phd_from sn cf o Hso ks g0 c n x0 s). Qed.
Print Assumptions C203_origin.

(** So whatever the inverse measurement establishes and single corrections, motions and merging keep (a valid covariance, say)
    holds for all landmarks of all runs. *)
Theorem C203_keeps : forall {Pose M T} (sn : hsensor Pose M T) cf o ks (P : T -> Prop), sort_contract (xSort o) ->
  (forall x y, received ks y -> P (hInv sn x y)) ->
  (forall x lm y, P lm -> received ks y -> P (snd (hCor sn x lm y)) /\ P (hSup sn x lm y)) ->
  (forall lm check move stat, P lm -> In (HPredict check move stat) ks -> P (stat lm)) ->
  (forall mix, (forall g v, In (g, v) mix -> P g) -> forall g v, In (g, v) (xMerge o mix) -> P g) ->
  forall g0 c n x0 s, hrun sn cf o g0 c (hf_new n x0) ks = Val s ->
  forall p mix lm w, In p (pset (rpf (hRb s))) -> pdata p = Some mix -> In (lm, w) mix -> P lm.
Proof. exact @phd_keeps. Qed.
Print Assumptions C203_keeps.

(** Three updates, a birth from a candidate; all landmarks are numbers that were measured, 7 was not. *)
Definition ex_calls : list (hcall nat nat nat) := HThreshold 0 :: [look [5]; go; look [5; 1]; go; look [5; 1; 2]; go]%nat.
Example C203_ex : sort_contract (xSort ex_o) /\
  omap shown (hrun (ex_sn (frac 1 2)) (ex_cf 2 false) ex_o false (RC 1 None true) (hf_new 1 100%nat) ex_calls) =
  Val [([(5%nat, 8 # 53); (5%nat, 1 # 10); (5%nat, 5 # 53); (5%nat, 1 # 16); (1%nat, 1 # 4)], Some (1 # 1))]%Q.
Proof. destruct ex_o_sound as (_ & _ & _ & _ & A & _). split; [exact A|]. vm_compute. reflexivity. Qed.
Definition measured (lm : nat) : Prop := received ex_calls lm.
Example C203_keeps_ex :
  (forall x y, received ex_calls y -> measured (hInv (ex_sn (frac 1 2)) x y)) /\
  (forall x lm y, measured lm -> received ex_calls y -> measured (snd (hCor (ex_sn (frac 1 2)) x lm y)) /\ measured (hSup (ex_sn (frac 1 2)) x lm y)) /\
  (forall lm check move stat, measured lm -> In (HPredict check move stat) ex_calls -> measured (stat lm)) /\
  (forall mix, (forall g v, In (g, v) mix -> measured g) -> forall g v, In (g, v) (xMerge ex_o mix) -> measured g) /\
  measured 1%nat /\ ~ measured 7%nat.
Proof.
  split; [intros x y H; exact H|]. split; [intros x lm y H _; split; [cbn; destruct (Nat.eqb lm y); exact H|exact H]|].
  split; [|split; [intros mix H; exact H|split]].
  - intros lm check move stat H Hk. repeat (destruct Hk as [E|Hk]; [try discriminate E; injection E as _ _ <-; exact H|]). destruct Hk.
  - exists [5; 1]%nat, (frac 1 3). split; [do 3 right; left; reflexivity|right; left; reflexivity].
  - intros (zs & u & Hk & Hz). repeat (destruct Hk as [E|Hk]; [try discriminate E; injection E as <- _; repeat (destruct Hz as [Hz|Hz]; [discriminate Hz|]); destruct Hz|]). destruct Hk.
Qed.
