(** Worlds for the examples, and witnesses of what does not hold of RFSCeresSLAM. *)
From Coq Require Import Reals ZArith List Bool Arith Lia Lra Permutation Sorted Relations.
From Coquelicot Require Import Coquelicot.
From Verif Require Import Base ListUtil SensorModel SensorDeriv OdometryModel OdometryProofs OdometryProofs2 OdometryWitness PartitionSpec
  CeresGradModel CeresGradSpec CeresGradProofs CeresGradProofs2 CeresGradProofs3 CeresGradProofs4.
Import ListNotations.
Local Open Scope R_scope.

(** ** One landmark in view, one measurement, associated or not *)
Definition w_bl : list (list nat * list nat * bool) := [([0%nat], [0%nat], true)].
Definition w_kb : list (list (list nat)) := [[[0; 1]%nat; [1; 0]%nat]].
Definition w_lik (t : R) (j n : nat) : R := 1 + t.
Definition w_pd (j : nat) : R := 1 / 2.
(** Landmark 0 is out of view. *)
Definition w_pd2 (j : nat) : R := if (j =? 0)%nat then 0 else 1 / 2.
Definition one : nat -> nat -> vec := fun _ _ _ => 1.

Lemma w_entry : forall t pd fv, pd (nth 0 fv 0%nat) = 1 / 2 -> 0 <= 1 + t ->
  g_entry (w_lik t) pd (fun _ => 0) (fun _ => (-1)%Z) 0 fv 0 0 = Some (1 + t).
Proof.
  intros t pd fv Hp Ht. unfold g_entry, barred, g_clutter, w_lik. cbn [Z.eqb Z.of_nat negb andb Pos.eqb]. rewrite Hp.
  replace (1 - 1 / 2) with (1 / 2) by field.
  replace (1 + t + ln (1 / 2) - ln (1 / 2) - 0) with (1 + t) by ring.
  destruct (Rlt_dec (1 + t) 0); [lra|reflexivity].
Qed.

Lemma w_pairs : pairs [0%nat] [0%nat] [0; 1]%nat = [(0, 0)]%nat /\ pairs [0%nat] [0%nat] [1; 0]%nat = [].
Proof. split; reflexivity. Qed.

Lemma w_score : forall ent x, ent 0%nat 0%nat = Some x -> score ent [0%nat] [0%nat] [0; 1]%nat = x /\ score ent [0%nat] [0%nat] [1; 0]%nat = 0.
Proof.
  intros ent x E. unfold score. rewrite (proj1 w_pairs), (proj2 w_pairs). unfold rsum. cbn [fold_right fst snd]. rewrite E. split; lra.
Qed.

Lemma w_proper : forall ent x, ent 0%nat 0%nat = Some x -> proper ent [0%nat] [0%nat] [0; 1]%nat /\ proper ent [0%nat] [0%nat] [1; 0]%nat.
Proof.
  intros ent x E. unfold proper. rewrite (proj1 w_pairs), (proj2 w_pairs). cbn [length Nat.add].
  split; (split; [reflexivity|]); (split; [|split]).
  1,4: intros [|[|r]] c Hc; cbn in Hc; try (injection Hc as <-); try lia; destruct r; discriminate.
  1,3: intros [|[|r]] c Hc; cbn in Hc; try (injection Hc as <-); try lia; destruct r; discriminate.
  - intros m n [H|[]]. injection H as <- <-. rewrite E. discriminate.
  - intros m n [].
Qed.

Lemma w_ranked : forall ent x, ent 0%nat 0%nat = Some x -> 0 <= x -> all_ranked ent w_bl w_kb w_kb.
Proof.
  intros ent x E Hx. split; [reflexivity|]. split; [reflexivity|].
  intros [|[|i]] b k H Hb Hk HH Hf; cbn in Hb, Hk, HH; try discriminate; try (destruct i; discriminate).
  injection Hb as <-. injection Hk as <-. injection HH as <-. cbn [b_rows b_cols fst snd].
  destruct (w_proper ent x E) as (P1 & P2). destruct (w_score ent x E) as (S1 & S2).
  split; [cbn; lia|]. split; [repeat constructor|]. split.
  - constructor; [constructor; [constructor|constructor]|]. constructor; [|constructor].
    cbn [g_score]. unfold g_ext. cbn [length Nat.ltb Nat.leb Nat.eqb Nat.sub nth]. rewrite E. cbn [entry]. lra.
  - split; [exists [0; 1]%nat, [[1; 0]%nat]; auto|]. split.
    + exists []. rewrite app_nil_r. split; [reflexivity|]. split; [apply Forall_cons; [exact P1|apply Forall_cons; [exact P2|apply Forall_nil]]|apply Forall_nil].
    + intros a [<-|[<-|[]]]; rewrite ?S1, ?S2; lra.
Qed.

Lemma w_near : forall pd fv, pd (nth 0 fv 0%nat) = 1 / 2 ->
  locally 0 (fun t => all_ranked (g_entry (w_lik t) pd (fun _ => 0) (fun _ => (-1)%Z) 0 fv) w_bl w_kb w_kb).
Proof.
  intros pd fv Hp. exists (mkposreal 1 Rlt_0_1). intros t Ht. unfold ball in Ht. cbn in Ht. unfold AbsRing_ball, abs, minus, plus, opp in Ht. cbn in Ht.
  apply Rabs_def2 in Ht. apply w_ranked with (x := 1 + t); [apply w_entry; [exact Hp|lra]|lra].
Qed.

Lemma w_blocks : forall ent x, ent 0%nat 0%nat = Some x -> blocks_of ent 1 1 w_bl.
Proof.
  intros ent x E. split; [reflexivity|]. split; [reflexivity|].
  assert (C : connected (fin ent) 0 1 1 (Row 0) (Col 0)).
  { apply rst_step. constructor; try lia. unfold fin. rewrite E. lia. }
  intros b u v [<-|[]] _ Hu Hv. destruct u as [i|i], v as [j|j]; cbn in Hu, Hv; destruct Hu as [<-|[]], Hv as [<-|[]];
    try apply rst_refl; [exact C|apply rst_sym; exact C].
Qed.

Lemma w_fov : g_fov w_pd 1 = [0%nat] /\ g_fov w_pd2 2 = [1%nat].
Proof.
  unfold g_fov, w_pd, w_pd2. cbn [seq filter Nat.eqb]. split; repeat (destruct Rlt_dec; try lra); reflexivity.
Qed.

Lemma w_settled : forall nZ, settled (fun _ => (-1)%Z) nZ.
Proof. intros nZ. left. auto. Qed.

Lemma w_der : forall j n, is_derive (fun t => w_lik t j n) 0 (dot 1 (one j n) (fun _ => 1)).
Proof.
  intros j n. unfold w_lik. evar_last; [apply der_plus; [apply der_cst|apply is_derive_id]|].
  match goal with |- @eq _ ?l ?r => change (@eq R l r) end. unfold one. cbn [dot]. unfold Hierarchy.one. cbn. ring.
Qed.

(** ** The gradient by the pose *)
Lemma w_pose : exists V lg pg d,
  locally 0 (fun t => exists lg' pg', g_scan (w_lik t) one one w_pd (fun _ => 0) (fun _ => (-1)%Z) 0 1 1 0 w_bl w_kb = Val (V t, lg', pg')) /\
  g_scan (w_lik 0) one one w_pd (fun _ => 0) (fun _ => (-1)%Z) 0 1 1 0 w_bl w_kb = Val (V 0, lg, pg) /\
  is_derive V 0 d /\ d <> dot 1 pg (fun _ => 1).
Proof.
  destruct w_fov as (F & _).
  assert (E0 := w_entry 0 w_pd [0%nat] eq_refl ltac:(lra)).
  destruct (by_pose 1 w_lik (fun _ => one) (fun _ => one) w_pd (fun _ => 0) (fun _ => (-1)%Z) 0 1 1 0 w_bl (fun _ => w_kb) w_kb (fun _ => 1))
    as (V & lg & pg & Fs & L & E & (B1 & B2) & Dv); try (rewrite F).
  - discriminate.
  - apply w_settled.
  - apply (w_blocks _ (1 + 0)). exact E0.
  - apply w_near. reflexivity.
  - apply w_der.
  - exists V, lg, pg. eexists. split; [exact L|]. split; [exact E|]. split; [exact Dv|].
    rewrite F in *. destruct Fs as [|f [|? ?]]; try discriminate.
    destruct (B2 0%nat _ _ _ eq_refl eq_refl eq_refl eq_refl) as (Hf & Hm). clear B2 B1 L E Dv.
    destruct (w_score _ _ E0) as (S1 & S2). cbn [combine fst snd b_flag w_bl w_kb rsum fold_right].
    unfold rsum. cbn [fold_right]. unfold b_rows, b_cols. cbn [fst snd]. unfold b_rows, b_cols in Hm. cbn [fst snd] in Hm.
    assert (Ef : f = [0; 1]%nat).
    { destruct Hf as [<-|[<-|[]]]; [reflexivity|]. assert (K := Hm [0; 1]%nat (or_introl eq_refl)). rewrite S1, S2 in K. lra. }
    subst f. unfold excess, rsum. cbn [fold_right]. rewrite S1, S2.
    rewrite (proj1 w_pairs), (proj2 w_pairs). unfold ps_sum, rsum, one. cbn [fold_right dot fst snd].
    replace (1 + 0 - (1 + 0)) with 0 by ring. replace (0 - (1 + 0)) with (-1) by ring. rewrite exp_0.
    assert (X := exp_pos (-1)). set (x := exp (-1)) in *.
    intro K.
    assert (Q : (1 - / (1 + (x + 0))) * (1 * (0 + (1 + 0) * 1 - (0 + (1 + 0) * 1)) + (x * (0 + 0 * 1 - (0 + (1 + 0) * 1)) + 0)) = - (x * x / (1 + x))) by (field; lra).
    assert (0 < x * x / (1 + x)) by (apply Rdiv_lt_0_compat; nra). lra.
Qed.

(** ** Segments *)
Lemma w_segment : exists V lg pg,
  locally 0 (fun t => exists lg' pg', g_scan (w_lik t) one one w_pd2 (fun _ => 0) (fun _ => (-1)%Z) 0 2 1 0 w_bl w_kb = Val (V t, lg', pg')) /\
  g_scan (w_lik 0) one one w_pd2 (fun _ => 0) (fun _ => (-1)%Z) 0 2 1 0 w_bl w_kb = Val (V 0, lg, pg) /\
  is_derive V 0 (lg 0%nat 0%nat) /\ lg 0%nat 0%nat <> 0 /\ lg 1%nat 0%nat = 0.
Proof.
  destruct w_fov as (_ & F).
  assert (E0 := w_entry 0 w_pd2 [1%nat] eq_refl ltac:(lra)).
  assert (HB : blocks_of (g_entry (w_lik 0) w_pd2 (fun _ => 0) (fun _ => (-1)%Z) 0 (g_fov w_pd2 2)) (length (g_fov w_pd2 2)) 1 w_bl).
  { rewrite F. apply (w_blocks _ (1 + 0)). exact E0. }
  assert (HL : locally 0 (fun t => all_ranked (g_entry (w_lik t) w_pd2 (fun _ => 0) (fun _ => (-1)%Z) 0 (g_fov w_pd2 2)) w_bl w_kb w_kb)).
  { rewrite F. apply w_near. reflexivity. }
  destruct (by_landmarks 1 w_lik (fun _ => one) (fun _ => one) w_pd2 (fun _ => 0) (fun _ => (-1)%Z) 0 2 1 0 w_bl (fun _ => w_kb) w_kb (fun _ _ => 1))
    as (V & lg & pg & L & E & Dv); try assumption.
  - rewrite F. discriminate.
  - apply w_settled.
  - intros j n. apply w_der.
  - destruct (blocks_rows _ _ _ _ HB) as (N & Lr).
    assert (Hfv : g_fov w_pd2 2 <> []) by (rewrite F; discriminate).
    destruct (scan_run w_lik (fun _ => one) (fun _ => one) w_pd2 (fun _ => 0) (fun _ => (-1)%Z) 0 2 1 0 w_bl (fun _ => w_kb) w_kb Hfv N
      (settled_free _ _ _ _ _ _ _ _ HB (w_settled 1)) 0 (locally_singleton _ _ HL)) as (lg2 & pg2 & E2 & G1 & _).
    rewrite E in E2. injection E2 as Ev El Ep. subst lg2.
    exists V, lg, pg. split; [exact L|]. split; [exact E|].
    assert (G : forall m, lg m 0%nat = if (m =? 0)%nat then exp 1 / (1 + exp 1) else 0).
    { intros m. rewrite G1. rewrite F. unfold rsum. cbn [combine w_bl w_kb fold_right]. unfold blk_lm. cbn [fst snd b_flag]. unfold b_rows, b_cols. cbn [fst snd].
      destruct (w_score _ _ E0) as (S1 & S2).
      unfold rsum. cbn [fold_right]. rewrite S1, S2, (proj1 w_pairs), (proj2 w_pairs). unfold lm_sum, rsum, one. cbn [fold_right fst snd].
      replace (1 + 0) with 1 by ring. rewrite exp_0. assert (X := exp_pos 1). rewrite Nat.eqb_sym. destruct (m =? 0)%nat; field; lra. }
    assert (X := exp_pos 1).
    split; [|split].
    + rewrite F in Dv. unfold rsum in Dv. cbn [length seq fold_right dot nth] in Dv. replace (lg 0%nat 0%nat) with (0 + lg 0%nat 0%nat * 1 + 0) by ring. exact Dv.
    + rewrite G. cbn [Nat.eqb]. assert (0 < exp 1 / (1 + exp 1)) by (apply Rdiv_lt_0_compat; lra). lra.
    + rewrite G. reflexivity.
Qed.

(** ** The evaluation throws *)
Definition x_lik (j n : nat) : R := match j, n with O, O => 0 | O, _ => 1 | _, _ => 2 end.
Definition x_da (n : nat) : Z := match n with 0%nat => 0%Z | _ => (-1)%Z end.
Definition x_bl : list (list nat * list nat * bool) := [([0; 1]%nat, [0; 1]%nat, true)].
Definition x_ent : nat -> nat -> option R := g_entry x_lik w_pd (fun _ => 0) x_da 0 [0; 1]%nat.

Lemma x_entry : x_ent 0%nat 0%nat = Some 1000 /\ x_ent 0%nat 1%nat = Some 1 /\ x_ent 1%nat 0%nat = None /\ x_ent 1%nat 1%nat = Some 2.
Proof.
  unfold x_ent, g_entry, barred, g_clutter, w_pd, BIG_NEG. cbn [x_da x_lik nth Z.eqb Z.of_nat negb andb Pos.eqb Pos.of_succ_nat].
  replace (1 - 1 / 2) with (1 / 2) by field. set (l := ln (1 / 2)).
  repeat match goal with |- context [Rlt_dec ?x 0] => destruct (Rlt_dec x 0); [lra|] end.
  repeat split; f_equal; ring.
Qed.

Lemma x_fov : g_fov w_pd 2 = [0; 1]%nat.
Proof. unfold g_fov, w_pd. cbn [seq filter]. repeat (destruct Rlt_dec; try lra). reflexivity. Qed.

Lemma x_blocks : blocks_of x_ent 2 2 x_bl.
Proof.
  destruct x_entry as (E00 & E01 & E10 & E11). split; [reflexivity|]. split; [reflexivity|].
  assert (C : forall i j, (i < 2)%nat -> (j < 2)%nat -> x_ent i j <> None -> connected (fin x_ent) 0 2 2 (Row i) (Col j)).
  { intros i j Hi Hj H. apply rst_step. constructor; try lia. unfold fin. destruct (x_ent i j); [lia|congruence]. }
  assert (C00 := C 0%nat 0%nat ltac:(lia) ltac:(lia) ltac:(congruence)).
  assert (C01 := C 0%nat 1%nat ltac:(lia) ltac:(lia) ltac:(congruence)).
  assert (C11 := C 1%nat 1%nat ltac:(lia) ltac:(lia) ltac:(congruence)).
  assert (G : forall u, inside ([0; 1]%nat, [0; 1]%nat) u -> connected (fin x_ent) 0 2 2 (Row 0) u).
  { intros [i|i] H; cbn in H; destruct H as [<-|[<-|[]]]; [apply rst_refl| |exact C00|exact C01].
    eapply rst_trans; [exact C01|apply rst_sym; exact C11]. }
  intros b u v [<-|[]] _ Hu Hv. eapply rst_trans; [apply rst_sym; apply G; exact Hu|apply G; exact Hv].
Qed.

Definition sorted_by (s : list nat -> R) : list (list nat) -> Prop := StronglySorted (fun a b => s b <= s a).
Lemma can_sort : forall (s : list nat -> R) l, exists l', Permutation l l' /\ sorted_by s l'.
Proof.
  assert (Ins : forall (s : list nat -> R) a l, sorted_by s l -> exists l', Permutation (a :: l) l' /\ sorted_by s l').
  { intros s a. induction l as [|b l IH]; intros H; [exists [a]; split; [reflexivity|repeat constructor]|].
    destruct (Rle_dec (s b) (s a)) as [C|C].
    - exists (a :: b :: l). split; [reflexivity|]. constructor; [exact H|]. constructor; [exact C|]. apply StronglySorted_inv in H. destruct H as (_ & H).
      eapply Forall_impl; [|exact H]. cbn. intros; lra.
    - apply StronglySorted_inv in H. destruct H as (H1 & H2). destruct (IH H1) as (l' & P & S). exists (b :: l'). split.
      + rewrite <- P. apply perm_swap.
      + constructor; [exact S|]. eapply Permutation_Forall; [exact P|]. constructor; [lra|exact H2]. }
  intros s. induction l as [|a l (l' & P & S)]; [exists []; split; [reflexivity|constructor]|].
  destruct (Ins s a l' S) as (l2 & P2 & S2). exists l2. split; [rewrite <- P2; constructor; exact P|exact S2].
Qed.

Lemma x_abort : forall lmg psg integral outs, (length outs <= 201)%nat -> List.Forall (fun a => length a = 4%nat) outs ->
  sorted_by (g_score x_ent [0; 1]%nat [0; 1]%nat 0) outs -> In [0; 1; 2; 3]%nat outs -> In [1; 0; 2; 3]%nat outs ->
  g_scan x_lik lmg psg w_pd (fun _ => 0) x_da 0 2 2 integral x_bl [outs] = UB Aborted.
Proof.
  intros lmg psg integral outs HL H4 HS H1 H2. destruct x_entry as (E00 & E01 & E10 & E11).
  unfold g_scan. rewrite x_fov. cbn [length Nat.eqb g_blocks x_bl]. change (g_entry x_lik w_pd (fun _ => 0) x_da 0 [0; 1]%nat) with x_ent.
  destruct outs as [|first rest]; [destruct H1|]. unfold g_block.
  assert (S1 : g_score x_ent [0; 1]%nat [0; 1]%nat 0 [0; 1; 2; 3]%nat = 1002).
  { cbn [g_score]. unfold g_ext. cbn [length Nat.ltb Nat.leb Nat.eqb Nat.sub nth]. rewrite E00, E11. cbn [entry]. lra. }
  assert (S2 : g_score x_ent [0; 1]%nat [0; 1]%nat 0 [1; 0; 2; 3]%nat = -999).
  { cbn [g_score]. unfold g_ext. cbn [length Nat.ltb Nat.leb Nat.eqb Nat.sub nth]. rewrite E01, E10. cbn [entry]. unfold BIG_NEG. lra. }
  apply StronglySorted_inv in HS. destruct HS as (HS & HF).
  assert (HM : 1002 <= g_score x_ent [0; 1]%nat [0; 1]%nat 0 first).
  { destruct H1 as [->|H1]; [lra|]. rewrite Forall_forall in HF. specialize (HF _ H1). cbn in HF. rewrite <- S1. exact HF. }
  assert (B0 : forall c, entry (g_ext x_ent [0; 1]%nat [0; 1]%nat 0 c) <= 1000).
  { intros [|[|c]]; unfold g_ext; cbn [length Nat.ltb Nat.leb nth]; rewrite ?E00, ?E01; cbn [entry]; try lra.
    destruct (0 =? S (S c) - 2)%nat; cbn [entry]; unfold BIG_NEG; lra. }
  assert (B2 : forall r c, (2 <= r)%nat -> entry (g_ext x_ent [0; 1]%nat [0; 1]%nat r c) <= 0).
  { intros r c Hr. unfold g_ext. cbn [length]. destruct (Nat.ltb_spec r 2); [lia|]. destruct (c <? 2)%nat; [destruct (r - 2 =? c)%nat|]; cbn [entry]; unfold BIG_NEG; lra. }
  assert (N1 : nth 1 first 0%nat <> 0%nat).
  { inversion H4 as [|? ? L4 _]; subst. destruct first as [|c0 [|c1 [|c2 [|c3 [|? ?]]]]]; try discriminate. cbn [nth]. intros ->.
    cbn [g_score] in HM. assert (Q0 := B0 c0). assert (Q2 := B2 2%nat c2 ltac:(lia)). assert (Q3 := B2 3%nat c3 ltac:(lia)).
    assert (Q1 : entry (g_ext x_ent [0; 1]%nat [0; 1]%nat 1 0) = -1000).
    { unfold g_ext. cbn [length Nat.ltb Nat.leb nth]. rewrite E10. reflexivity. }
    lra. }
  destruct H2 as [->|H2]; [cbn in N1; congruence|].
  rewrite (others_abort x_ent _ _ [0; 1]%nat [0; 1]%nat first rest 200 1 _ [1; 0; 2; 3]%nat 1%nat); try reflexivity; try assumption; cbn [length nth]; try lia.
  - cbn [length] in HL. lia.
  - rewrite S2. unfold BIG_NEG. lra.
Qed.

(** ** Motion in the plane *)
Definition turn_pose (t : R) (k : nat) : pose2 := match k with O => P2 0 0 0 | S O => P2 0 0 t | _ => P2 1 1 0 end.
Definition turn_input (k : nat) : odo2 := match k with S O => O2 0 0 0 | _ => O2 1 0 0 end.
Definition turn_dir (k : nat) : vec := match k with S O => vec_of [0; 0; 1] | _ => fun _ => 0 end.
Definition turn_f (t : R) (k : nat) : R * vec :=
  log_likelihood_grad 3 id_mx 1 (vec2 (move_2d (turn_pose t (k - 1)) (turn_input k))) (vec2 (turn_pose t k)).

Lemma turn_poses : forall k i, (i < 3)%nat -> is_derive (fun t => vec2 (turn_pose t k) i) 0 (turn_dir k i).
Proof.
  intros k i Hi. destruct k as [|[|k]]; cbn [turn_pose turn_dir]; [apply der_cst| |apply der_cst].
  unfold vec2, vec_of. cbn [p_x p_y p_t]. destruct i as [|[|[|i]]]; cbn [nth]; [apply der_cst|apply der_cst|apply (is_derive_id (K := R_AbsRing))|lia].
Qed.

Lemma turn_derivative : is_derive (fun t => fst (motion_grad (turn_f t) 3)) 0 1.
Proof.
  set (c := ln (sqrt ((2 * PI) ^ 3 * 1))). pose proof pi_bounds as P.
  apply (is_derive_ext_loc (fun t => (-1 / 2 * (t * t) - c) + (-1 / 2 * ((1 - cos t) * (1 - cos t) + (1 - sin t) * (1 - sin t) + t * t) - c))).
  - exists (mkposreal 1 Rlt_0_1). intros t Ht. unfold ball in Ht. cbn in Ht. unfold AbsRing_ball, abs, minus, plus, opp in Ht. cbn in Ht. apply Rabs_def2 in Ht.
    unfold motion_grad. cbn [Nat.sub seq fold_left fst]. unfold turn_f, log_likelihood_grad, log_gauss. fold c. cbn [fst Nat.sub turn_pose turn_input].
    rewrite !move_2d_eq. cbn [p_x p_y p_t o_x o_y o_t]. rewrite (principal_id (0 + 0)) by lra. rewrite (principal_id (t + 0)) by lra.
    unfold maha_n, mapp, id_mx, vec2, vec_of. cbn [dot nth p_x p_y p_t Nat.eqb]. rewrite cos_0, sin_0. match goal with |- @eq _ ?l ?r => change (@eq R l r) end. ring.
  - auto_derive; [exact I|]. rewrite cos_0, sin_0. field.
Qed.

Lemma turn_gradient : rsum (fun j => dot 3 (snd (motion_grad (turn_f 0) 3) j) (turn_dir (S j))) (seq 0 2) = 0.
Proof.
  pose proof pi_bounds as P.
  unfold motion_grad, rsum. cbn [Nat.sub seq fold_left fold_right snd fst Nat.eqb]. unfold turn_f, log_likelihood_grad. cbn [snd Nat.sub turn_pose turn_input turn_dir].
  rewrite !move_2d_eq. cbn [p_x p_y p_t o_x o_y o_t]. rewrite !(principal_id (0 + 0)) by lra.
  unfold mapp, id_mx, vec2, vec_of. cbn [dot nth p_x p_y p_t Nat.eqb]. rewrite cos_0, sin_0. ring.
Qed.

(** ** Bearings *)
Lemma bearing_border : exists h z : vec, exists k : Z, -PI < h 1%nat <= PI /\ -PI < z 1%nat <= PI /\
  fst (eval_log 2 id_mx 1 h z) < fst (eval_log 2 id_mx 1 h (vec_of [z 0%nat; z 1%nat + IZR k * (2 * PI)])).
Proof.
  pose proof pi_bounds as P. exists (vec_of [1; PI]), (vec_of [1; 1 - PI]), 1%Z. unfold eval_log, log_gauss, mapp, id_mx, vec_of. cbn [nth dot fst Nat.eqb].
  split; [lra|]. split; [lra|]. 
  replace (1 - PI + 1 * (2 * PI) - PI) with 1 by ring. replace (1 - PI - PI) with (1 - 2 * PI) by ring. nra.
Qed.
