(** Where the Gaussians of the LMB and CB-MeMBer filters come from. *)
From Coq Require Import ZArith QArith Qcanon List Bool Arith Lia.
From Verif Require Import Base QcLra ParticleModel RbRunModel LmbModel MemberModel TrackRunModel TrackRunProperties MemberRunModel MemberRunProperties ExactModel ExactProperties TrackOriginSpec TrackOriginProofs.
Import ListNotations.
Local Open Scope Qc_scope.

(** ** C204: at any point of a run every Gaussian of every track of any particle goes back to measurements received.  No condition
    on the sensor, the configuration, the partition, Murty's assignments or the draws. *)
Theorem C204_lmb : forall {Pose M G} (sn : sensor Pose M G) cf o c n x0 ks s,
  trun (lmb_exact sn cf o) (sInv sn) c (tf_new n x0) ks = Val s -> all_from sn o ks s.
Proof. intros Pose M G sn cf o c n x0 ks s. exact (track_from sn o ks _ (exact_sound sn o ks cf) c n x0 s). Qed.
Print Assumptions C204_lmb.
Theorem C204_member : forall {Pose M G} (sn : sensor Pose M G) integral cf o c n x0 ks s,
  trun (cb_one sn integral cf o) (sInv sn) c (tf_new n x0) ks = Val s -> all_from sn o ks s.
Proof. intros Pose M G sn integral cf o c n x0 ks s. exact (track_from sn o ks _ (cb_sound sn o ks integral cf) c n x0 s). Qed.
Print Assumptions C204_member.
(** So what the inverse measurement establishes and corrections, motions and merging keep holds for all Gaussians. *)
Theorem C204_keeps : forall {Pose M G} (sn : sensor Pose M G) o ks (P : G -> Prop),
  (forall x y, heard_of ks y -> P (sInv sn x y)) ->
  (forall x g y g' lik, P g -> heard_of ks y -> sCor sn x y g = Some (g', lik) -> P g') ->
  (forall g move stat, P g -> In (TPredict move stat) ks -> P (stat g)) ->
  (forall mix, (forall v h, In (v, h) mix -> P h) -> forall w g, In (w, g) (oMerge o mix) -> P g) ->
  forall s, all_from sn o ks s -> forall p ts t w g, In p (pset (rpf (tRb s))) -> pdata p = Some ts -> In t ts -> In (w, g) (tG t) -> P g.
Proof. exact @tfrom_keeps. Qed.
Print Assumptions C204_keeps.

(** Two particles, two updates with a birth each; every Gaussian is a number that was measured, 7 was not. *)
Definition ox_calls : list (tcall nat nat nat) := TThreshold 1 :: [clook [1]; cgo; clook [1; 2]; cgo]%nat.
Definition gaussians (s : tfilt nat nat nat) : list (list (list nat)) :=
  map (fun p => match pdata p with Some ts => map (fun t => map snd (tG t)) ts | None => [] end) (pset (rpf (tRb s))).
Example C204_ex :
  omap gaussians (trun (lmb_exact cx_sn (TrackRunProperties.ex_cf 0) TrackRunProperties.ex_o) (sInv cx_sn) (RC 1 None true) (tf_new 2 0%nat) ox_calls) =
    Val [[[1; 1]; [2]; [1]]; [[1; 1]; [2]; [1]]]%nat /\
  omap gaussians (trun (cb_one cx_sn cx_int (cx_cf (cfrac 1 1000)) cx_o) (sInv cx_sn) (RC 1 None true) (tf_new 2 0%nat) ox_calls) =
    Val [[[1]; [1]; [2]]; [[1]; [1]; [2]]]%nat.
Proof. split; vm_compute; reflexivity. Qed.
Example C204_keeps_ex :
  (forall x y, heard_of ox_calls y -> heard_of ox_calls (sInv cx_sn x y)) /\
  (forall x g y g' lik, heard_of ox_calls g -> heard_of ox_calls y -> sCor cx_sn x y g = Some (g', lik) -> heard_of ox_calls g') /\
  (forall g move stat, heard_of ox_calls g -> In (TPredict move stat) ox_calls -> heard_of ox_calls (stat g)) /\
  (forall mix, (forall v h, In (v, h) mix -> heard_of ox_calls h) -> forall w g, In (w, g) (oMerge cx_o mix) -> heard_of ox_calls g) /\
  heard_of ox_calls 2%nat /\ ~ heard_of ox_calls 7%nat.
Proof.
  split; [intros x y H; exact H|]. split; [|split; [|split; [intros mix H w g; exact (H w g)|split]]].
  - intros x g y g' lik H _ E. cbn in E. destruct (Nat.eqb _ _); [|discriminate]. injection E as <- _. exact H.
  - intros g move stat H Hk. repeat (destruct Hk as [E|Hk]; [try discriminate E; injection E as _ <-; exact H|]). destruct Hk.
  - exists [1; 2]%nat, (cfrac 1 3). split; [do 3 right; left; reflexivity|right; left; reflexivity].
  - intros (zs & u & Hk & Hz). repeat (destruct Hk as [E|Hk]; [try discriminate E; injection E as <- _; repeat (destruct Hz as [Hz|Hz]; [discriminate Hz|]); destruct Hz|]). destruct Hk.
Qed.
