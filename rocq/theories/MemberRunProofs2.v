(** One update of the CB-MeMBer filter keeps solid maps. *)
From Coq Require Import ZArith QArith Qcanon List Bool Arith Lia.
From Verif Require Import Base ListUtil QcLra ParticleModel RbRunModel PermanentSpec PermanentProofs PartitionSpec RfsModel RfsSpec RfsProofs RfsProofs6
  LmbModel LmbSpec LmbProofs2 LmbProofs3 LmbProofs4 LmbProofs MemberModel MemberSpec MemberProofs MemberProofs3 TrackRunModel TrackRunSpec TrackRunProofs TrackRunProofs2 MemberRunModel MemberRunSpec MemberRunProofs.
Import ListNotations.
Local Open Scope Qc_scope.

Section One.
Context {Pose M G : Type}.
Notation tmap := (list (track G)).
Variable sn : sensor Pose M G.
Variable integral : nat -> Qc.
Variable cf : cconf.
Variable o : outside G.
Hypothesis Hsn : csensor_sound sn integral.
Hypothesis Ho : coutside_sound o.

Lemma solid_fair : forall t : track G, solid t -> fair t.
Proof.
  intros t ((A1 & A2) & A3 & A4 & _). split; [split; [exact A1|now apply Qclt_le_weak]|]. split; [|exact A4].
  intros w g Hin. apply Qclt_le_weak. eapply A3. exact Hin.
Qed.
Lemma solids_fair : forall ts : tmap, Forall solid ts -> Forall fair ts.
Proof. intros ts H. eapply Forall_impl; [|exact H]. exact solid_fair. Qed.

Variable zs : list M.
Variable x : Pose.
Definition corx (z : nat) (g : G) : option (G * Qc) := match nth_error zs z with Some y => sCor sn x y g | None => None end.
Definition clutx (z : nat) : Qc := match nth_error zs z with Some y => sClut sn y | None => 0 end.
Notation pd := (pd_of (sPd sn x)).

Lemma corx_pos : forall z g g' l, corx z g = Some (g', l) -> 0 < l.
Proof using Hsn. intros z g g' l. unfold corx. destruct (nth_error zs z) as [y|]; [apply Hsn|discriminate]. Qed.
Lemma clutx_pos : forall z, (z < length zs)%nat -> 0 < clutx z.
Proof using Hsn. intros z H. unfold clutx. destruct (nth_error zs z) as [y|] eqn:E; [apply Hsn|apply nth_error_None in E; lia]. Qed.
Lemma sensor_okx : sensor_ok (sPd sn x) corx clutx (length zs).
Proof using Hsn.
  split; [|split].
  - intros g. destruct (proj1 Hsn x g). split; [assumption|now apply Qclt_le_weak].
  - intros z g g' l E. apply Qclt_le_weak. eapply corx_pos. exact E.
  - exact clutx_pos.
Qed.

Variable ts : tmap.
Hypothesis Hts : Forall solid ts.
Lemma ts_in : forall t, In t ts -> solid t.
Proof using Hts. now apply Forall_forall. Qed.
Lemma ts_pd : forall t, In t ts -> 0 <= pd t < 1.
Proof using Hsn Hts zs. intros t Ht. apply pd_below; [apply Hsn|]. apply solid_fair. now apply ts_in. Qed.
Lemma ts_lt : forall t, In t ts -> tP t < 1.
Proof using Hts. intros t Ht. apply (ts_in t Ht). Qed.
Lemma ts_ne : forall t, In t ts -> tP t * pd t <> 1.
Proof using Hsn Hts zs. eapply below_one; [exact sensor_okx|now apply solids_fair|exact ts_lt]. Qed.

Lemma old_solid : forall t, In t ts -> solid (old_track (sPd sn x) t).
Proof using Hsn Hts zs.
  intros t Ht. destruct (old_range (sPd sn x) corx clutx (length zs) ts sensor_okx (solids_fair _ Hts) ts_ne t Ht) as [[A1 A2] _].
  destruct (ts_in t Ht) as ((B1 & B2) & B3 & B4 & B5). split; [split; [exact A1|eapply Qcle_lt_trans; eassumption]|]. cbn [tG old_track].
  split; [exact B3|]. split; [exact B4|]. intros N. specialize (B5 N). cbn [tP old_track]. destruct (ts_pd t Ht) as [P1 P2].
  apply div_pos; [apply mul_pos; [exact B5|qclra]|]. exact (miss_pos (sPd sn x) corx clutx (length zs) ts sensor_okx (solids_fair _ Hts) ts_ne t Ht).
Qed.

(** A Gaussian in view that can be corrected explains the measurement. *)
Lemma can_explain : forall z t w g g' l, In t ts -> 0 < pd t -> In (w, g) (tG t) -> corx z g = Some (g', l) -> explains (sPd sn x) corx t z.
Proof using Hsn Hts zs.
  intros z t w g g' l Ht Hp Hin E. destruct (ts_in t Ht) as (_ & B3 & _ & B5). split; [|split; [exact Hp|]].
  - apply B5. intros C. rewrite C in Hin. destruct Hin.
  - unfold lik_of. apply (qsum_pos (fun g0 => match corx z (snd g0) with Some (_, l0) => l0 * fst g0 | None => 0 end) (tG t) (w, g)); [|exact Hin|].
    + intros [w1 g1] H1. cbn [fst snd]. destruct (corx z g1) as [[g2 l2]|] eqn:E2; [|apply Qcle_refl].
      apply mul_nonneg; apply Qclt_le_weak; [eapply corx_pos; exact E2|eapply B3; exact H1].
    + cbn [fst snd]. rewrite E. apply mul_pos; [eapply corx_pos; exact E|eapply B3; exact Hin].
Qed.
Lemma explain_fits : forall z, (exists t, In t ts /\ explains (sPd sn x) corx t z) <-> fits_map sn zs x ts z.
Proof using Hsn Hts zs.
  intros z. split.
  - intros (t & Ht & _ & P2 & P3). unfold lik_of in P3.
    assert (K : exists wg, In wg (tG t) /\ corx z (snd wg) <> None).
    { destruct (existsb (fun wg => match corx z (snd wg) with Some _ => true | None => false end) (tG t)) eqn:B.
      - apply existsb_exists in B as (wg & H1 & H2). exists wg. split; [exact H1|]. destruct (corx z (snd wg)); [discriminate|discriminate].
      - exfalso. assert (E : qsum (map (fun g0 => match corx z (snd g0) with Some (_, l0) => l0 * fst g0 | None => 0 end) (tG t)) = 0).
        { apply qsum_zero_all. intros wg H1. destruct (corx z (snd wg)) as [p|] eqn:E; [|reflexivity]. exfalso.
          assert (C : existsb (fun wg => match corx z (snd wg) with Some _ => true | None => false end) (tG t) = true).
          { apply existsb_exists. exists wg. split; [exact H1|]. now rewrite E. }
          congruence. }
        rewrite E in P3. revert P3. apply Qcle_not_lt, Qcle_refl. }
    destruct K as ([w g] & H1 & H2). cbn [snd] in H2. unfold corx in H2. destruct (nth_error zs z) as [y|] eqn:Ey; [|congruence].
    destruct (sCor sn x y g) as [[g' l]|] eqn:E; [|congruence]. exists y, t, w, g, g', l. auto 7.
  - intros (y & t & w & g & g' & l & Ey & Ht & Hp & Hin & E). exists t. split; [exact Ht|]. apply (can_explain z t w g g' l Ht Hp Hin).
    unfold corx. now rewrite Ey.
Qed.

Definition mk (z : nat) : @new_track G := MemberProofs.made (sPd sn x) corx clutx ts z.
Lemma mk_solid : forall z, (z < length zs)%nat -> exists g, n_G (mk z) = Some g /\ solid (Track (n_P (mk z)) g) /\
  ((fits_map sn zs x ts z /\ 0 < n_P (mk z) /\ qsum (map fst g) = 1 /\ forall g', (exists w, In (w, g') g) <-> correction_of sn zs x ts z g') \/
   (~ fits_map sn zs x ts z /\ n_P (mk z) = 0 /\ g = [])).
Proof using Hsn Hts zs.
  intros z Hz. assert (Hf := solids_fair _ Hts). assert (D := den_pos (sPd sn x) corx clutx (length zs) ts sensor_okx Hf ts_ne z Hz).
  destruct (made_range (sPd sn x) corx clutx (length zs) ts sensor_okx Hf ts_ne z Hz) as [R1 _].
  assert (R2 : n_P (mk z) < 1).
  { unfold mk. cbn [n_P MemberProofs.made]. apply Qcdiv_lt; [exact D|]. destruct (num_range (sPd sn x) corx clutx (length zs) ts sensor_okx Hf ts_ne z) as [_ B].
    unfold cb_den, dterm in *. assert (C := clutx_pos z Hz). qclra. }
  assert (Z := made_zero (sPd sn x) corx clutx (length zs) ts sensor_okx Hf ts_ne z Hz ts_lt).
  destruct (explained_dec G (sPd sn x) corx ts z) as [He|Hn].
  - assert (Pp : 0 < n_P (mk z)).
    { destruct (Qcle_lt_or_eq _ _ R1) as [K|K]; [exact K|]. symmetry in K. apply Z in K. contradiction. }
    destruct (mixture_ok (sPd sn x) corx clutx (length zs) ts sensor_okx Hf z ts_lt He) as (gs & E1 & E2 & E3 & E4).
    assert (Mp := mass_pos (sPd sn x) corx clutx (length zs) ts sensor_okx Hf z ts_lt He).
    exists gs. split; [exact E1|]. split; [split; [split; [exact R1|exact R2]|]; cbn [tG tP]; split; [|split; [rewrite E2; apply Qcle_refl|auto]]|].
    + intros w g Hin. destruct (Qcle_lt_or_eq _ _ (E3 w g Hin)) as [K|K]; [exact K|exfalso].
      apply E4 in Hin as (t & w0 & g0 & l & Ht & Hp & Hin & C & E). rewrite <- K in E. rewrite Qcmult_0_l in E.
      destruct (ts_in t Ht) as ((B1 & B2) & B3 & _ & B5).
      assert (V : 0 < tP t / (1 - tP t) * (pd t * (l * w0))).
      { apply mul_pos; [apply div_pos; [apply B5; intros C2; rewrite C2 in Hin; destruct Hin|qclra]|]. apply mul_pos; [exact Hp|].
        apply mul_pos; [eapply corx_pos; exact C|eapply B3; exact Hin]. }
      rewrite <- E in V. revert V. apply Qcle_not_lt, Qcle_refl.
    + left. split; [now apply explain_fits|]. split; [exact Pp|]. split; [exact E2|]. intros g'. split.
      * intros (w & Hin). apply E4 in Hin as (t & w0 & g0 & l & Ht & Hp & Hin & C & _). unfold corx in C.
        destruct (nth_error zs z) as [y|] eqn:Ey; [|discriminate]. exists y, t, w0, g0, l. auto.
      * intros (y & t & w0 & g0 & l & Ey & Ht & Hp & Hin & C). exists (tP t / (1 - tP t) * (pd t * (l * w0)) / cb_mass (sPd sn x) corx ts z).
        apply E4. exists t, w0, g0, l. repeat (split; [assumption|]). split; [unfold corx; now rewrite Ey|]. apply Qcdiv_mul. now apply Qcpos_neq.
  - assert (Eg : gs_of (sPd sn x) corx ts z = []).
    { destruct (gs_of (sPd sn x) corx ts z) as [|[w g'] l] eqn:Eg; [reflexivity|exfalso].
      assert (Hin : In (w, g') (gs_of (sPd sn x) corx ts z)) by (rewrite Eg; now left).
      apply gs_in in Hin as (t & w0 & g & l0 & Ht & Hp & Hin & C & _). apply Hn. exists t. split; [exact Ht|]. eapply can_explain; eassumption. }
    assert (Pz : n_P (mk z) = 0) by (now apply Z).
    exists []. unfold mk at 1. cbn [n_G MemberProofs.made]. rewrite Eg. split; [reflexivity|]. split.
    + split; [split; [exact R1|exact R2]|]. cbn [tG tP]. split; [intros w g []|]. split; [cbn [map]; rewrite qsum_nil; discriminate|congruence].
    + right. split; [intros C; apply Hn; now apply explain_fits|auto].
Qed.

(** What the loop over the tracks and the loop over the measurements leave. *)
Definition seen_of (t : track G) : @seen_track G := Seen_track (tP t) (pd t) (tG t).
Notation vs := (map seen_of (inview (sPd sn x) ts)).
Lemma loops_val : legacies (sPd sn x) ts = Val (map (old_track (sPd sn x)) ts, vs) /\
  all_meas corx clutx vs (seq 0 (length zs)) = Val (map mk (seq 0 (length zs))).
Proof using Hsn Hts zs.
  split; [exact (legacies_ok (sPd sn x) ts ts_ne)|]. apply (all_meas_ok (sPd sn x) corx clutx ts).
  - intros t Ht. apply (ts_pd t Ht).
  - intros z Hz. apply in_seq in Hz. apply Qcpos_neq. apply (den_pos (sPd sn x) corx clutx (length zs)); [exact sensor_okx|now apply solids_fair|exact ts_ne|lia].
Qed.

(** The factor of the weight is positive. *)
Notation L := (cb_L corx (bThr cf) vs).
Lemma L_nonneg : forall m z, 0 <= L m z.
Proof using Hsn Hts zs.
  intros m z. unfold cb_L. destruct (nth_error vs m) as [s|] eqn:E; [|apply Qcle_refl].
  rewrite gauss_fold. cbn [fst]. apply nth_error_In in E. apply in_map_iff in E as (t & <- & Ht). apply filter_In in Ht as [Ht _]. cbn [s_pd s_g seen_of].
  assert (K : 0 <= 0 + pd t * qsum (map (fun g => match corx z (snd g) with Some (_, l) => l * fst g | None => 0 end) (tG t))).
  { rewrite Qcplus_0_l. apply mul_nonneg; [apply (ts_pd t Ht)|]. exact (lik_nonneg (sPd sn x) corx clutx (length zs) sensor_okx t z (solid_fair _ (ts_in t Ht))). }
  destruct (Qcltb _ _); [exact K|apply Qcle_refl].
Qed.
Lemma pds_range : forall m, 0 <= cb_pds vs m <= 1.
Proof using Hsn Hts zs.
  intros m. unfold cb_pds. destruct (nth_error vs m) as [s|] eqn:E; [|split; discriminate]. apply nth_error_In in E. apply in_map_iff in E as (t & <- & Ht).
  apply filter_In in Ht as [Ht _]. cbn [s_pd seen_of]. destruct (ts_pd t Ht). split; [assumption|now apply Qclt_le_weak].
Qed.
Lemma factor_ok : zs <> [] -> let cc := oComp o (sig L) (length vs) (length zs) in
  exists w, rfs_likelihood L (cb_pds vs) clutx 8 (oBest o) (fst cc) (snd cc) (integral (length zs)) (length vs) (length zs) = Val w /\ 0 < w.
Proof using Hsn Ho Hts.
  intros Hz cc. assert (Hn : (0 < length zs)%nat) by (destruct zs; [congruence|cbn; lia]). destruct Ho as (O1 & O2 & _).
  apply (rfs_alive L (cb_pds vs) clutx 8 (oBest o)).
  - exact L_nonneg.
  - exact pds_range.
  - intros c. destruct (Nat.ltb_spec c (length zs)) as [H|H]; [apply Qclt_le_weak; now apply clutx_pos|]. unfold clutx.
    rewrite (proj2 (nth_error_None zs c) H). apply Qcle_refl.
  - exact O2.
  - now apply Hsn.
  - lia.
  - eapply components_ext; [|apply O1]. intros i j. reflexivity.
  - intros m Hm. unfold cb_pds. destruct (nth_error vs m) as [s|] eqn:E; [|apply nth_error_None in E; lia]. apply nth_error_In in E.
    apply in_map_iff in E as (t & <- & Ht). apply filter_In in Ht as [Ht Hp]. cbn [s_pd seen_of]. apply Qcltb_true in Hp. split; [exact Hp|apply (ts_pd t Ht)].
  - exact clutx_pos.
Qed.
End One.
