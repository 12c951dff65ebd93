(** Proofs about the tree sensor: the neighbourhood of a tree, clutter. *)
From Coq Require Import Reals List Bool ZArith Lra Lia.
From Verif Require Import Base AngleModel AngleProofs SensorModel SensorProofs VpModel VpSpec VpProofs VpProofs2.
Import ListNotations.
Local Open Scope R_scope.

(** * Lists *)
Lemma each_ok : forall (A B : Type) (f : A -> outcome B) l rs, each f l = Val rs -> Forall2 (fun a b => f a = Val b) l rs.
Proof.
  intros A B f. induction l as [|a l IH]; intros rs H; cbn [each] in H.
  - injection H as <-. constructor.
  - apply obind_val in H. destruct H as (b & Hb & H). apply obind_val in H. destruct H as (r & Hr & H). injection H as <-.
    constructor; [exact Hb|apply IH; exact Hr].
Qed.
Lemma each_total : forall (A B : Type) (f : A -> outcome B) l, (forall a, In a l -> f a <> OutOfFuel) -> each f l <> OutOfFuel.
Proof.
  intros A B f. induction l as [|a l IH]; intros H; cbn [each]; [discriminate|].
  destruct (f a) as [b|u|] eqn:E; cbn [obind]; [|discriminate|exfalso; apply (H a); [left; reflexivity|exact E]].
  destruct (each f l) as [r|u|] eqn:E'; cbn [obind]; try discriminate. exfalso. apply IH; [|reflexivity].
  intros x Hx. apply H. right. exact Hx.
Qed.
Lemma each_ext : forall (A B : Type) (f g : A -> outcome B) l, (forall a, In a l -> f a = g a) -> each f l = each g l.
Proof.
  intros A B f g. induction l as [|a l IH]; intros H; cbn [each]; [reflexivity|].
  rewrite (H a) by (left; reflexivity). destruct (g a); cbn [obind]; try reflexivity. rewrite IH; [reflexivity|].
  intros x Hx. apply H. right. exact Hx.
Qed.
Lemma forall2_in_l : forall (A B : Type) (P : A -> B -> Prop) l l' a, Forall2 P l l' -> In a l -> exists b, In b l' /\ P a b.
Proof. intros A B P l l' a H. induction H; intros []; [subst; eexists; split; [left; reflexivity|assumption]|]. destruct IHForall2 as (b & ? & ?); [assumption|]. exists b. split; [right; assumption|assumption]. Qed.
Lemma forall2_in_r : forall (A B : Type) (P : A -> B -> Prop) l l' b, Forall2 P l l' -> In b l' -> exists a, In a l /\ P a b.
Proof. intros A B P l l' b H. induction H; intros []; [subst; eexists; split; [left; reflexivity|assumption]|]. destruct IHForall2 as (a & ? & ?); [assumption|]. exists a. split; [right; assumption|assumption]. Qed.

Lemma fold_max : forall l x, (fold_left Rmax l x = x \/ In (fold_left Rmax l x) l) /\ x <= fold_left Rmax l x /\
  (forall y, In y l -> y <= fold_left Rmax l x).
Proof.
  induction l as [|y l IH]; intros x; cbn [fold_left]; [split; [left; reflexivity|split; [lra|intros ? []]]|].
  destruct (IH (Rmax x y)) as (A & B & C). pose proof (Rmax_l x y). pose proof (Rmax_r x y). split; [|split; [lra|]].
  - destruct A as [A|A]; [|right; right; exact A]. rewrite A. unfold Rmax. destruct (Rle_dec x y); [right; left; reflexivity|left; reflexivity].
  - intros u [<-|Hu]; [lra|apply C; exact Hu].
Qed.
Lemma fold_min : forall l x, (fold_left Rmin l x = x \/ In (fold_left Rmin l x) l) /\ fold_left Rmin l x <= x /\
  (forall y, In y l -> fold_left Rmin l x <= y).
Proof.
  induction l as [|y l IH]; intros x; cbn [fold_left]; [split; [left; reflexivity|split; [lra|intros ? []]]|].
  destruct (IH (Rmin x y)) as (A & B & C). pose proof (Rmin_l x y). pose proof (Rmin_r x y). split; [|split; [lra|]].
  - destruct A as [A|A]; [|right; right; exact A]. rewrite A. unfold Rmin. destruct (Rle_dec x y); [left; reflexivity|right; left; reflexivity].
  - intros u [<-|Hu]; [lra|apply C; exact Hu].
Qed.
Lemma greatest_spec : forall l, l <> [] -> In (greatest l) l /\ (forall y, In y l -> y <= greatest l).
Proof.
  intros [|x l] H; [congruence|]. cbn [greatest]. destruct (fold_max l x) as (A & B & C). split.
  - destruct A as [->|A]; [left; reflexivity|right; exact A].
  - intros y [<-|Hy]; [exact B|apply C; exact Hy].
Qed.
Lemma least_spec : forall l, l <> [] -> In (least l) l /\ (forall y, In y l -> least l <= y).
Proof.
  intros [|x l] H; [congruence|]. cbn [least]. destruct (fold_min l x) as (A & B & C). split.
  - destruct A as [->|A]; [left; reflexivity|right; exact A].
  - intros y [<-|Hy]; [exact B|apply C; exact Hy].
Qed.

(** * The neighbourhood *)
Lemma side_unit : forall p z, fst (side p z) ^ 2 + snd (side p z) ^ 2 = 1.
Proof. intros p z. unfold side. cbn [fst snd]. pose proof (cs1 (atan2 (m_b z) (m_r z) + p_t p)). lra. Qed.

Lemma looked_in : forall l u is t, In t (looked_at l u is) <-> t = l \/ exists i, In (Z.abs i) (map Z.abs is) /\ (In i is \/ In (- i)%Z is) /\ t = shifted l u i.
Proof.
  intros l u is t. unfold looked_at. rewrite in_app_iff, in_flat_map. split.
  - intros [(i & Hi & [<-|[<-|[]]])|[<-|[]]].
    + right. exists i. split; [apply in_map; exact Hi|]. split; [left; exact Hi|reflexivity].
    + right. exists (- i)%Z. rewrite Z.abs_opp. split; [apply in_map; exact Hi|]. split; [right; rewrite Z.opp_involutive; exact Hi|reflexivity].
    + left. reflexivity.
  - intros [->|(i & _ & [Hi|Hi] & ->)]; [right; left; reflexivity| |].
    + left. exists i. split; [exact Hi|left; reflexivity].
    + left. exists (- i)%Z. split; [exact Hi|]. right. left. rewrite Z.opp_involutive. reflexivity.
Qed.
Lemma shifted_0 : forall l u, shifted l u 0 = l.
Proof. intros [x y d] u. unfold shifted. cbn. f_equal; ring. Qed.

Lemma last_map : forall (A B : Type) (f : A -> B) l d, last (map f l) (f d) = f (last l d).
Proof. induction l as [|a [|b l] IH]; intros d; try reflexivity. change (last (map f (b :: l)) (f d) = f (last (b :: l) d)). apply IH. Qed.

Lemma steps_in : forall fuel d x i is, 0 < x -> (1 <= i)%Z -> steps fuel d (Some x) i = Val is ->
  0 < d /\ (forall k, In k is <-> (i <= k)%Z /\ IZR (k - 1) * (2 * d) < x).
Proof.
  induction fuel as [|fuel IH]; intros d x i is X I H; [discriminate|]. cbn [steps] in H.
  destruct (Rlt_dec (IZR (i - 1) * (2 * d)) x) as [L|L].
  - apply obind_val in H. destruct H as (r & Hr & H). injection H as <-. destruct (IH d x (i + 1)%Z r X ltac:(lia) Hr) as (D & E).
    split; [exact D|]. intro k. cbn [In]. rewrite E. split.
    + intros [<-|(A & B)]; [split; [lia|exact L]|split; [lia|exact B]].
    + intros (A & B). destruct (Z.eq_dec i k) as [->|N]; [left; reflexivity|right; split; [lia|exact B]].
  - injection H as <-. assert (P : 0 <= IZR (i - 1)) by (apply IZR_le; lia). assert (D : 0 < d) by nra. split; [exact D|].
    intro k. split; [intros []|]. intros (A & B). apply IZR_le in A. rewrite minus_IZR in B, L, P. nra.
Qed.

Lemma vp_pd_ok : forall fuel sc nz c scan p l LS v close, vp_pd fuel sc nz c scan p l LS = Val (v, close) ->
  exists ux uy (is : list Z), ux ^ 2 + uy ^ 2 = 1 /\
    let spot i := Tree (t_x l + IZR i * 2 * t_d l * ux) (t_y l + IZR i * 2 * t_d l * uy) (t_d l) in
    In 0%Z is /\ (forall i, In i is -> In (- i)%Z is) /\
    (let q := (ux * LS 0%nat 0%nat + uy * LS 1%nat 0%nat) * ux + (ux * LS 0%nat 1%nat + uy * LS 1%nat 1%nat) * uy in
     0 <= q -> forall i, In i is <-> IZR (Z.abs i - 1) * (2 * t_d l) < Rmax (3 * sqrt q) (2 / 10)) /\
    (forall i, In i is -> exists w f, vp_pd2 fuel sc nz c scan p (spot i) = Val (w, f) /\ w <= v) /\
    (exists i f, In i is /\ vp_pd2 fuel sc nz c scan p (spot i) = Val (v, f)) /\
    (forall i f w j g, In i is -> In j is -> vp_pd2 fuel sc nz c scan p (spot i) = Val (0, f) ->
       (forall k w' f', In k is -> vp_pd2 fuel sc nz c scan p (spot k) = Val (w', f') -> 0 <= w') ->
       vp_pd2 fuel sc nz c scan p (spot j) = Val (w, g) -> 0 < w -> close = true) /\
    (close = true -> (exists w, vp_pd2 fuel sc nz c scan p l = Val (w, true)) \/
       0 < v /\ exists i f, In i is /\ vp_pd2 fuel sc nz c scan p (spot i) = Val (0, f)).
Proof.
  intros fuel sc nz c scan p l LS v close H. unfold vp_pd in H. apply obind_val in H. destruct H as (e & He & H).
  set (u := side p (e_mean (snd e))) in *. apply obind_val in H. destruct H as (is & His & H).
  apply obind_val in H. destruct H as (rs & Hrs & H). apply each_ok in Hrs.
  set (js := (0 :: is ++ map Z.opp is)%Z).
  assert (Spot : forall i, Tree (t_x l + IZR i * 2 * t_d l * fst u) (t_y l + IZR i * 2 * t_d l * snd u) (t_d l) = shifted l u i) by reflexivity.
  assert (J : forall t, In t (looked_at l u is) <-> exists i, In i js /\ t = shifted l u i).
  { intro t. rewrite looked_in. unfold js. split.
    - intros [->|(i & _ & Hi & ->)]; [exists 0%Z; split; [left; reflexivity|rewrite shifted_0; reflexivity]|].
      exists i. split; [|reflexivity]. right. apply in_app_iff. destruct Hi as [Hi|Hi]; [left; exact Hi|right].
      apply in_map_iff. exists (- i)%Z. split; [lia|exact Hi].
    - intros (i & [<-|Hi] & ->); [left; apply shifted_0|]. right. exists i. apply in_app_iff in Hi. destruct Hi as [Hi|Hi].
      + split; [apply in_map; exact Hi|]. split; [left; exact Hi|reflexivity].
      + apply in_map_iff in Hi. destruct Hi as (k & <- & Hk). split; [rewrite Z.abs_opp; apply in_map; exact Hk|].
        split; [right; rewrite Z.opp_involutive; exact Hk|reflexivity]. }
  assert (Ne : map fst rs <> []).
  { intro E. apply map_eq_nil in E. subst rs. inversion Hrs. unfold looked_at in *. destruct (flat_map _ is); discriminate. }
  destruct (greatest_spec _ Ne) as (G1 & G2). destruct (least_spec _ Ne) as (L1 & L2).
  assert (El : e_mean (snd e) = e_mean (snd e)) by reflexivity. clear El.
  injection H as <- Hc.
  assert (Get : forall i, In i js -> exists w f, vp_pd2 fuel sc nz c scan p (shifted l u i) = Val (w, f) /\ In w (map fst rs)).
  { intros i Hi. destruct (forall2_in_l _ _ _ _ _ (shifted l u i) Hrs) as ((w & f) & Hw & E); [apply J; exists i; auto|].
    exists w, f. split; [exact E|]. apply in_map_iff. exists (w, f). auto. }
  assert (Put : forall w, In w (map fst rs) -> exists i f, In i js /\ vp_pd2 fuel sc nz c scan p (shifted l u i) = Val (w, f)).
  { intros w Hw. apply in_map_iff in Hw. destruct Hw as ((w' & f) & <- & Hw). destruct (forall2_in_r _ _ _ _ _ _ Hrs Hw) as (t & Ht & E).
    apply J in Ht. destruct Ht as (i & Hi & ->). exists i, f. split; [exact Hi|exact E]. }
  assert (Last : exists w, vp_pd2 fuel sc nz c scan p l = Val (w, snd (last rs (0, false)))).
  { unfold looked_at in Hrs. apply Forall2_app_inv_l in Hrs. destruct Hrs as (r1 & r2 & _ & Hr2 & ->).
    inversion Hr2 as [|? b ? l' Hb Hn]; subst. inversion Hn; subst. rewrite last_last. destruct b as (w & f). exists w. exact Hb. }
  exists (fst u), (snd u), js. split; [apply side_unit|]. cbv zeta. split; [left; reflexivity|]. split; [|split; [|split; [|split; [|split]]]].
  - intros i [<-|Hi]; [left; reflexivity|]. right. apply in_app_iff. apply in_app_iff in Hi. destruct Hi as [Hi|Hi].
    + right. apply in_map. exact Hi.
    + left. apply in_map_iff in Hi. destruct Hi as (k & <- & Hk). rewrite Z.opp_involutive. exact Hk.
  - intros Q i. unfold reach in His. cbv zeta in His.
    destruct (Rlt_dec _ 0) as [B|_] in His; [exfalso; revert B; apply Rle_not_lt; exact Q|].
    apply steps_in in His; [|apply Rlt_le_trans with (2 / 10); [lra|apply Rmax_r]|lia]. destruct His as (D & K).
    unfold js. cbn [In]. rewrite in_app_iff, in_map_iff. rewrite K. split.
    + intros [<-|[(A & B)|(k & <- & Hk)]].
      * apply Rlt_le_trans with (2 / 10); [change (Z.abs 0 - 1)%Z with (-1)%Z; lra|apply Rmax_r].
      * rewrite Z.abs_eq by lia. exact B.
      * apply K in Hk. destruct Hk as (A & B). rewrite Z.abs_opp, Z.abs_eq by lia. exact B.
    + intro B. destruct (Z.eq_dec i 0) as [->|N]; [left; reflexivity|right]. destruct (Z.leb_spec 0 i).
      * left. rewrite Z.abs_eq in B by lia. split; [lia|exact B].
      * right. exists (- i)%Z. split; [lia|]. apply K. rewrite Z.abs_neq in B by lia. split; [lia|exact B].
  - intros i Hi. rewrite Spot. destruct (Get i Hi) as (w & f & E & Hw). exists w, f. split; [exact E|apply G2; exact Hw].
  - destruct (Put _ G1) as (i & f & Hi & E). exists i, f. split; [exact Hi|exact E].
  - intros i f w j g Hi Hj Ei Hpos Ej Hw. rewrite Spot in Ei, Ej.
    destruct (Get i Hi) as (w0 & f0 & E0 & H0). rewrite Ei in E0. injection E0 as <- <-.
    destruct (Get j Hj) as (w1 & f1 & E1 & H1). rewrite Ej in E1. injection E1 as <- <-.
    assert (Lz : least (map fst rs) = 0).
    { apply Rle_antisym; [apply L2; exact H0|]. destruct (Put _ L1) as (k & f' & Hk & Ek). apply (Hpos k _ f' Hk Ek). }
    rewrite Lz in Hc. destruct (Req_EM_T 0 0); [|lra]. pose proof (G2 _ H1). destruct (Rlt_dec 0 (greatest (map fst rs))); [congruence|lra].
  - intro C. destruct Last as (w & Hw). destruct (Req_EM_T (least (map fst rs)) 0) as [E|_]; [|left; exists w; rewrite Hw; congruence].
    destruct (Rlt_dec 0 (greatest (map fst rs))) as [G|_]; [|left; exists w; rewrite Hw; congruence].
    right. split; [exact G|]. rewrite E in L1. destruct (Put _ L1) as (i & f & Hi & Ei). exists i, f. split; [exact Hi|exact Ei].
Qed.

(** * Termination *)
Lemma score_total : forall fuel c scan z, (722 <= fuel)%nat -> 0 <= m_r z -> 0 < m_d z -> - PI <= m_b z <= PI ->
  vp_score fuel c scan z <> OutOfFuel.
Proof.
  intros fuel c scan z F Hr Hd Hb. unfold vp_score.
  destruct (Rlt_dec (c_bmax c) (m_b z)); [discriminate|]. destruct (Rlt_dec (m_b z) (c_bmin c)); [discriminate|].
  destruct (Rlt_dec (m_r z) (c_rmin c)); [discriminate|]. destruct (Rlt_dec (c_rmax c) (m_r z)); [discriminate|].
  assert (G : exists g, half_angle (m_d z / 2) (m_r z) = Some g /\ 0 <= g <= PI / 2).
  { pose proof PI_RGT_0. destruct (Rle_lt_or_eq_dec 0 (m_r z) Hr) as [P|Z].
    - destruct (half_angle_spec (m_d z / 2) (m_r z) P) as (E & B); [lra|]. eexists. split; [exact E|lra].
    - exists (PI / 2). unfold half_angle. destruct (Req_EM_T (m_r z) 0); [|lra]. destruct (Rlt_dec 0 (m_d z / 2)); [|lra]. split; [reflexivity|lra]. }
  destruct G as (g & -> & Gr). cbn [of_option obind]. pose proof (beams_range g Gr) as Hn. pose proof (first_range (m_b z) g Hb Gr) as Hf.
  match goal with |- context [if ?b then Val (0, false) else _] => destruct b end; [discriminate|].
  rewrite !beam720_mod by lia. cbn [obind].
  match goal with |- context [if (0 <? ?x)%Z then count_clear _ _ ?from _ _ _ else _] => set (fr := from) end.
  destruct (reads_dec scan (first_beam (m_b z) g) (Z.to_nat (beams g))) as [A|A].
  - rewrite loop_ok by assumption. cbn [obind]. unfold entry.
    match goal with |- context [if (?i <? 0)%Z then _ else _] => destruct (i <? 0)%Z end; [discriminate|].
    match goal with |- context [of_option _ ?x] => destruct x end; discriminate.
  - rewrite loop_out by assumption. discriminate.
Qed.

Lemma pd2_total : forall sc nz c scan p l, 0 < t_d l -> exists N, forall fuel, (N < fuel)%nat -> vp_pd2 fuel sc nz c scan p l <> OutOfFuel.
Proof.
  intros sc nz c scan p l Hd. destruct (vp_measure_ok sc nz p (fun _ _ => 0) l (fun _ _ => 0) (fun _ _ => 0)) as (N & e & H & Hr & Hb & Ed & _).
  exists (Nat.max N 722). intros fuel F. unfold vp_pd2. rewrite H by lia. cbn [obind snd]. apply score_total; [lia| | |exact Hb].
  - rewrite Hr. apply sqrt_pos.
  - rewrite Ed. exact Hd.
Qed.

Lemma steps_ends : forall fuel d x i, 0 < d -> x <= (IZR i + INR fuel - 2) * (2 * d) -> (0 < fuel)%nat -> exists is, steps fuel d (Some x) i = Val is.
Proof.
  induction fuel as [|f IH]; intros d x i Hd Hx F; [lia|]. cbn [steps].
  destruct (Rlt_dec (IZR (i - 1) * (2 * d)) x) as [L|_]; [|eexists; reflexivity].
  rewrite minus_IZR in L. rewrite S_INR in Hx. destruct f as [|f].
  - exfalso. cbn [INR] in Hx. nra.
  - destruct (IH d x (i + 1)%Z Hd) as (is & E); [rewrite plus_IZR; nra|lia|]. rewrite E. eexists. reflexivity.
Qed.
Lemma steps_mono : forall f f' d s i is, steps f d s i = Val is -> (f <= f')%nat -> steps f' d s i = Val is.
Proof.
  induction f as [|f IH]; intros f' d s i is H F.
  - destruct s as [x|]; [discriminate|]. destruct f'; exact H.
  - destruct f' as [|f']; [lia|]. destruct s as [x|]; [|exact H]. cbn [steps] in *.
    destruct (Rlt_dec _ x); [|exact H]. apply obind_val in H. destruct H as (ks & Hr & H). rewrite (IH f' d (Some x) _ ks Hr ltac:(lia)). exact H.
Qed.
Lemma INR_unbounded : forall y, exists n, INR n > y.
Proof.
  intro y. exists (Z.to_nat (up y)). destruct (archimed y) as (A & _). destruct (Z_le_gt_dec 0 (up y)) as [L|L].
  - rewrite INR_IZR_INZ, Z2Nat.id by exact L. exact A.
  - assert (IZR (up y) <= -1) by (apply IZR_le; lia). pose proof (pos_INR (Z.to_nat (up y))). lra.
Qed.
Lemma steps_total : forall d s, 0 < d -> exists N is, forall fuel, (N < fuel)%nat -> steps fuel d s 1 = Val is.
Proof.
  intros d [x|] Hd.
  - destruct (INR_unbounded (x / (2 * d) + 1)) as (n & Hn).
    assert (Hx : x <= (IZR 1 + INR (S n) - 2) * (2 * d)).
    { rewrite S_INR. apply Rmult_gt_compat_r with (r := 2 * d) in Hn; [|lra]. rewrite Rmult_plus_distr_r in Hn.
      replace (x / (2 * d) * (2 * d)) with x in Hn by (field; lra). nra. }
    destruct (steps_ends (S n) d x 1 Hd Hx ltac:(lia)) as (is & E). exists n, is. intros fuel F. apply (steps_mono (S n)); [exact E|lia].
  - exists 0%nat, []. intros [|f] F; [lia|reflexivity].
Qed.

Lemma list_bound : forall (A : Type) (P : A -> nat -> Prop) l, (forall a, In a l -> exists N, forall fuel, (N < fuel)%nat -> P a fuel) ->
  exists N, forall a fuel, In a l -> (N < fuel)%nat -> P a fuel.
Proof.
  intros A P. induction l as [|a l IH]; intros H; [exists 0%nat; intros ? ? []|].
  destruct (H a) as (N & HN); [left; reflexivity|]. destruct IH as (M & HM); [intros; apply H; right; assumption|].
  exists (Nat.max N M). intros b fuel [<-|Hb] F; [apply HN; lia|apply HM; [exact Hb|lia]].
Qed.

Lemma vp_pd_total : forall sc nz c scan p l LS, 0 < t_d l -> exists N, forall fuel, (N < fuel)%nat -> vp_pd fuel sc nz c scan p l LS <> OutOfFuel.
Proof.
  intros sc nz c scan p l LS Hd. destruct (vp_measure_ok sc nz p (fun _ _ => 0) l LS (fun _ _ => 0)) as (N1 & e & H & _).
  set (u := side p (e_mean e)). destruct (steps_total (t_d l) (reach LS u) Hd) as (N2 & is & H2).
  destruct (list_bound tree (fun t fuel => vp_pd2 fuel sc nz c scan p t <> OutOfFuel) (looked_at l u is)) as (N3 & H3).
  { intros t Ht. apply pd2_total. apply looked_in in Ht. destruct Ht as [->|(i & _ & _ & ->)]; [exact Hd|exact Hd]. }
  exists (Nat.max N1 (Nat.max N2 N3)). intros fuel F. unfold vp_pd. rewrite H by lia. cbn [obind snd]. fold u. rewrite H2 by lia. cbn [obind].
  destruct (each (vp_pd2 fuel sc nz c scan p) (looked_at l u is)) as [rs|b|] eqn:E; cbn [obind]; try discriminate.
  exfalso. apply (each_total _ _ (vp_pd2 fuel sc nz c scan p) (looked_at l u is)); [|exact E]. intros t Ht. apply (H3 t fuel Ht). lia.
Qed.

Lemma steps_diverge : forall fuel d x i, d <= 0 -> 0 < x -> (1 <= i)%Z -> steps fuel d (Some x) i = OutOfFuel.
Proof.
  induction fuel as [|f IH]; intros d x i Hd Hx Hi; [reflexivity|]. cbn [steps].
  destruct (Rlt_dec (IZR (i - 1) * (2 * d)) x) as [L|N].
  - rewrite IH; [reflexivity|exact Hd|exact Hx|lia].
  - exfalso. apply N. assert (0 <= IZR (i - 1)) by (apply IZR_le; lia). nra.
Qed.
Lemma vp_pd_diverges : forall fuel sc nz c scan p l LS, t_d l <= 0 ->
  (forall a b, 0 <= (a * LS 0%nat 0%nat + b * LS 1%nat 0%nat) * a + (a * LS 0%nat 1%nat + b * LS 1%nat 1%nat) * b) ->
  vp_pd fuel sc nz c scan p l LS = OutOfFuel.
Proof.
  intros fuel sc nz c scan p l LS Hd Hp. unfold vp_pd. destruct (vp_measure fuel sc nz p _ l LS _) as [e|b|] eqn:E; cbn [obind].
  - unfold reach. set (u := side p (e_mean (snd e))). destruct (Rlt_dec _ 0) as [L|_]; [specialize (Hp (fst u) (snd u)); lra|].
    rewrite steps_diverge; [reflexivity|exact Hd| |lia]. eapply Rlt_le_trans; [|apply Rmax_r]. lra.
  - exfalso. unfold vp_measure, measure_rb in E. destruct (wrap fuel _) eqn:W; cbn [obind] in E; try discriminate.
    clear - W. unfold wrap in W. assert (D : forall f a b, wrap_down f a <> UB b) by (induction f; intros; cbn; [discriminate|]; destruct (Rlt_dec _ _); [apply IHf|discriminate]).
    assert (U : forall f a b, wrap_up f a <> UB b) by (induction f; intros; cbn; [discriminate|]; destruct (Rlt_dec _ _); [apply IHf|discriminate]).
    destruct (wrap_down fuel _) eqn:X; cbn [obind] in W; [|eapply D; exact X|discriminate]. eapply U. exact W.
  - reflexivity.
Qed.

(** * Clutter *)
Lemma cross_sin : forall r a r' a', cross r a r' a' = r * r' * sin (a' - a).
Proof. intros. unfold cross. rewrite sin_minus. ring. Qed.
Lemma neighbours_fan : forall l k, neighbours l * (sin (PI / 360) / 2) = fan k l.
Proof.
  induction l as [|x [|y l] IH]; intros k; [cbn; ring|cbn; ring|].
  change (neighbours (x :: y :: l)) with (neighbours (y :: l) + y * x).
  change (fan k (x :: y :: l)) with (cross x (beam_angle k) y (beam_angle (k + 1)) / 2 + fan (k + 1) (y :: l)).
  rewrite <- IH, cross_sin. unfold beam_angle. rewrite plus_IZR. replace ((IZR k + 1) * (PI / 360) - IZR k * (PI / 360)) with (PI / 360) by ring.
  field.
Qed.
Lemma area_any : forall x l, fov_area (x :: l) = Val (fan 0 (x :: l) + x * last (x :: l) 0 * (sin (PI / 360) / 2)).
Proof. intros x l. unfold fov_area. rewrite <- (neighbours_fan (x :: l) 0). f_equal. ring. Qed.
Lemma area_full : forall scan, length scan = 720%nat -> fov_area scan = Val (polygon scan).
Proof.
  intros [|x l] H; [discriminate|]. rewrite area_any. unfold polygon. rewrite H. cbn [hd]. f_equal. f_equal. rewrite cross_sin.
  unfold beam_angle. change (Z.of_nat 720 - 1)%Z with 719%Z.
  replace (0 * (PI / 360) - 719 * (PI / 360)) with (PI / 360 + IZR (-1) * (2 * PI)) by lra. rewrite sin_turns. field.
Qed.
Lemma clutter_full : forall c scan, length scan = 720%nat -> polygon scan <> 0 ->
  exists i, vp_clutter c scan = Val (Some i) /\ i * polygon scan = vp_integral c.
Proof.
  intros c scan H P. unfold vp_clutter. rewrite area_full by exact H. cbn [obind]. destruct (Req_EM_T (polygon scan) 0); [contradiction|].
  eexists. split; [reflexivity|]. unfold vp_integral. field. exact P.
Qed.
Lemma neighbours_pos : forall l, (forall x, In x l -> 0 < x) -> (2 <= length l)%nat -> 0 < neighbours l.
Proof.
  induction l as [|x [|y l] IH]; intros H L; cbn in L; try lia.
  change (neighbours (x :: y :: l)) with (neighbours (y :: l) + y * x).
  assert (0 < y * x) by (apply Rmult_lt_0_compat; apply H; cbn; auto).
  destruct l as [|w l]; [cbn; lra|]. assert (0 < neighbours (y :: w :: l)); [|lra]. apply IH; [intros u Hu; apply H; right; exact Hu|cbn; lia].
Qed.
Lemma sin_beam : 0 < sin (PI / 360).
Proof. pose proof PI_RGT_0. apply sin_gt_0; lra. Qed.
Lemma last_in : forall (l : list R) d, l <> [] -> In (last l d) l.
Proof. induction l as [|x [|y l] IH]; intros d H; [congruence|left; reflexivity|]. right. apply (IH d). discriminate. Qed.
(** Every scan without missing echoes that does not go all around gives too low an intensity. *)
Lemma clutter_half : forall c scan, (2 <= length scan)%nat -> (forall x, In x scan -> 0 < x) -> 0 < vp_integral c ->
  exists i, vp_clutter c scan = Val (Some i) /\ i * fan 0 scan < vp_integral c.
Proof.
  intros c scan L P C. destruct scan as [|x l]; [cbn in L; lia|]. pose proof sin_beam as S0.
  pose proof (neighbours_pos (x :: l) P L) as N. pose proof (neighbours_fan (x :: l) 0) as E.
  assert (X : 0 < x * last (x :: l) 0 * (sin (PI / 360) / 2)).
  { apply Rmult_lt_0_compat; [|lra]. apply Rmult_lt_0_compat; apply P; [left; reflexivity|]. apply last_in. discriminate. }
  assert (F : 0 < fan 0 (x :: l)) by (rewrite <- E; apply Rmult_lt_0_compat; lra).
  unfold vp_clutter. rewrite area_any. cbn [obind]. set (A := fan 0 (x :: l)) in *. set (B := x * last (x :: l) 0 * (sin (PI / 360) / 2)) in *.
  destruct (Req_EM_T (A + B) 0); [lra|]. eexists. split; [reflexivity|]. unfold vp_integral in *.
  apply Rmult_lt_reg_r with (A + B); [lra|]. replace (c_clut c / (A + B) * A * (A + B)) with (c_clut c * A) by (field; lra). nra.
Qed.
Lemma clutter_no_echo : forall c n, (0 < n)%nat -> vp_clutter c (repeat 0 n) = Val None.
Proof.
  intros c [|n] H; [lia|]. cbn [repeat]. unfold vp_clutter, fov_area.
  assert (E : forall m, neighbours (repeat 0 m) = 0).
  { induction m as [|[|m] IH]; try reflexivity. change (neighbours (repeat 0 (S (S m)))) with (neighbours (repeat 0 (S m)) + 0 * 0). rewrite IH. ring. }
  change (0 :: repeat 0 n) with (repeat 0 (S n)). rewrite E. cbn [obind]. destruct (Req_EM_T _ 0) as [|X]; [reflexivity|]. exfalso. apply X. ring.
Qed.
