(** Proofs about frames of reference and generators. *)
From Coq Require Import Reals List Bool ZArith Lra Lia Psatz Arith.
From Verif Require Import Base TimeStampModel SensorModel SensorProofs AngleProofs FrameModel FrameSpec.
Import ListNotations.
Local Open Scope R_scope.

Lemma unit_atan2 : forall c s, c ^ 2 + s ^ 2 = 1 -> cos (atan2 s c) = c /\ sin (atan2 s c) = s /\ - PI < atan2 s c <= PI.
Proof.
  intros c s H. destruct (atan2_spec s c ltac:(lra)) as (A & B & C). rewrite H, sqrt_1 in A, B. split; [lra|]. split; [lra|exact C].
Qed.
Lemma rot_rot : forall a b, mmul 2 (rot a) (rot b) 1%nat 0%nat = sin (a + b) /\ mmul 2 (rot a) (rot b) 0%nat 0%nat = cos (a + b).
Proof. intros a b. unfold mmul, rot, mx_of. cbn [dot nth]. rewrite sin_plus, cos_plus. split; ring. Qed.

(** Heading of the composition. *)
Lemma compose_heading : forall f g, let h := p_t (f_pose (compose f g)) in
  - PI < h <= PI /\ cos h = cos (p_t (f_pose f) + p_t (f_pose g)) /\ sin h = sin (p_t (f_pose f) + p_t (f_pose g)).
Proof.
  intros f g. unfold compose. cbv zeta. cbn [f_pose p_t]. destruct (rot_rot (p_t (f_pose f)) (p_t (f_pose g))) as (A & B). rewrite A, B.
  pose proof (cs1 (p_t (f_pose f) + p_t (f_pose g))) as U.
  destruct (unit_atan2 (cos (p_t (f_pose f) + p_t (f_pose g))) (sin (p_t (f_pose f) + p_t (f_pose g)))) as (C & D & E).
  - pose proof (sin2_cos2 (p_t (f_pose f) + p_t (f_pose g))) as S. unfold Rsqr in S. lra.
  - auto.
Qed.

Lemma compose_acts : forall f g v, place (compose f g) v = place f (place g v).
Proof.
  intros f g v. destruct (compose_heading f g) as (_ & C & S). unfold place at 1. rewrite C, S, cos_plus, sin_plus.
  unfold compose, place. cbn [f_pose p_x p_y fst snd]. f_equal; ring.
Qed.

Lemma heading_eq : forall a b, - PI < a <= PI -> - PI < b <= PI -> cos a = cos b -> sin a = sin b -> a = b.
Proof.
  intros a b A B C S. destruct (same_angle a b C S) as (k & E). pose proof PI_RGT_0 as P.
  assert (H1 : (-1 < k)%Z) by (apply lt_IZR; nra). assert (H2 : (k < 1)%Z) by (apply lt_IZR; nra).
  assert (k = 0)%Z by lia. subst k. lra.
Qed.

Lemma pose_ext : forall a b : pose2, p_x a = p_x b -> p_y a = p_y b -> p_t a = p_t b -> a = b.
Proof. intros [x y t] [x' y' t'] X Y T. cbn in *. subst. reflexivity. Qed.

Lemma compose_assoc : forall f g h, f_pose (compose (compose f g) h) = f_pose (compose f (compose g h)) /\
  f_base (compose (compose f g) h) = f_base (compose f (compose g h)).
Proof.
  intros f g h. split; [|reflexivity].
  assert (P : place (compose (compose f g) h) (0, 0) = place (compose f (compose g h)) (0, 0)) by (rewrite !compose_acts; reflexivity).
  assert (O : forall k, place k (0, 0) = (p_x (f_pose k), p_y (f_pose k))) by (intro k; unfold place; cbn [fst snd]; f_equal; ring).
  rewrite !O in P. pose proof (f_equal fst P) as X. pose proof (f_equal snd P) as Y. apply pose_ext; [exact X|exact Y|].
  destruct (compose_heading (compose f g) h) as (A1 & C1 & S1). destruct (compose_heading f (compose g h)) as (A2 & C2 & S2).
  destruct (compose_heading f g) as (_ & Cf & Sf). destruct (compose_heading g h) as (_ & Cg & Sg).
  apply heading_eq; [exact A1|exact A2| |].
  - rewrite C1, C2, !cos_plus, Cf, Sf, Cg, Sg, !cos_plus, !sin_plus. ring.
  - rewrite S1, S2, !sin_plus, Cf, Sf, Cg, Sg, !cos_plus, !sin_plus. ring.
Qed.

(** The composition is relative to the base of its first operand. *)
Lemma compose_base : forall f g, f_base (compose f g) = f_base f.
Proof. reflexivity. Qed.

(** The time of the composition is the later one. *)
Lemma compose_time : forall f g, let t := f_time (compose f g) in
  (t = f_time f \/ t = f_time g) /\ ts_ltb t (f_time f) = false /\ ts_ltb t (f_time g) = false.
Proof.
  intros f g. unfold compose. cbv zeta. cbn [f_time]. destruct (ts_ltb (f_time f) (f_time g)) eqn:E.
  - split; [right; reflexivity|]. split.
    + unfold ts_ltb in *. destruct (f_time f) as [a b], (f_time g) as [c d]. cbn [sec nsec] in *.
      destruct (Z.ltb_spec a c), (Z.ltb_spec c a); try lia; try reflexivity; destruct (Z.eqb_spec a c), (Z.eqb_spec c a); try lia; cbn [andb] in *;
      try discriminate; try reflexivity; destruct (Z.ltb_spec b d), (Z.ltb_spec d b); try lia; try discriminate; reflexivity.
    + unfold ts_ltb. rewrite Z.ltb_irrefl, Z.eqb_refl, Z.ltb_irrefl. reflexivity.
  - split; [left; reflexivity|]. split; [|exact E]. unfold ts_ltb. rewrite Z.ltb_irrefl, Z.eqb_refl, Z.ltb_irrefl. reflexivity.
Qed.

(** * Points and covariances *)
Lemma place_isometry : forall f v w,
  (fst (place f v) - fst (place f w)) ^ 2 + (snd (place f v) - snd (place f w)) ^ 2 = (fst v - fst w) ^ 2 + (snd v - snd w) ^ 2.
Proof.
  intros f v w. unfold place. cbn [fst snd]. pose proof (sin2_cos2 (p_t (f_pose f))) as S. unfold Rsqr in S.
  set (c := cos (p_t (f_pose f))) in *. set (s := sin (p_t (f_pose f))) in *.
  transitivity ((s * s + c * c) * ((fst v - fst w) ^ 2 + (snd v - snd w) ^ 2)); [ring|rewrite S; ring].
Qed.
Lemma place_onto : forall f w, exists v, place f v = w.
Proof.
  intros f (x, y). set (a := p_t (f_pose f)). set (dx := x - p_x (f_pose f)). set (dy := y - p_y (f_pose f)).
  exists (cos a * dx + sin a * dy, - sin a * dx + cos a * dy). unfold place. fold a. cbn [fst snd].
  pose proof (sin2_cos2 a) as S. unfold Rsqr in S. f_equal.
  - transitivity ((sin a * sin a + cos a * cos a) * dx + p_x (f_pose f)); [ring|rewrite S; unfold dx; ring].
  - transitivity ((sin a * sin a + cos a * cos a) * dy + p_y (f_pose f)); [ring|rewrite S; unfold dy; ring].
Qed.

(** The variance of the turned covariance along the turned direction is the variance along the direction. *)
Lemma cov_form : forall a m u w, let ru := (cos a * u + - sin a * w) in let rw := (sin a * u + cos a * w) in
  let k := sandwich 2 (rot a) m in
  ru * (k 0%nat 0%nat * ru + k 0%nat 1%nat * rw) + rw * (k 1%nat 0%nat * ru + k 1%nat 1%nat * rw) =
  u * (m 0%nat 0%nat * u + m 0%nat 1%nat * w) + w * (m 1%nat 0%nat * u + m 1%nat 1%nat * w).
Proof.
  intros a m u w. cbv zeta. unfold sandwich, mmul, tr, rot, mx_of. cbn [dot nth].
  pose proof (sin2_cos2 a) as S. unfold Rsqr in S. set (c := cos a) in *. set (s := sin a) in *.
  set (A := m 0%nat 0%nat). set (B := m 0%nat 1%nat). set (C := m 1%nat 0%nat). set (D := m 1%nat 1%nat).
  transitivity ((s * s + c * c) ^ 2 * (u * (A * u + B * w) + w * (C * u + D * w))); [ring|rewrite S; ring].
Qed.
Lemma cov_trace_det : forall a m, let k := sandwich 2 (rot a) m in
  k 0%nat 0%nat + k 1%nat 1%nat = m 0%nat 0%nat + m 1%nat 1%nat /\
  k 0%nat 0%nat * k 1%nat 1%nat - k 0%nat 1%nat * k 1%nat 0%nat = m 0%nat 0%nat * m 1%nat 1%nat - m 0%nat 1%nat * m 1%nat 0%nat /\
  k 0%nat 1%nat - k 1%nat 0%nat = m 0%nat 1%nat - m 1%nat 0%nat.
Proof.
  intros a m. cbv zeta. unfold sandwich, mmul, tr, rot, mx_of. cbn [dot nth].
  pose proof (sin2_cos2 a) as S. unfold Rsqr in S. set (c := cos a) in *. set (s := sin a) in *.
  set (A := m 0%nat 0%nat). set (B := m 0%nat 1%nat). set (C := m 1%nat 0%nat). set (D := m 1%nat 1%nat).
  split; [|split].
  - transitivity ((s * s + c * c) * (A + D)); [ring|rewrite S; ring].
  - transitivity ((s * s + c * c) ^ 2 * (A * D - B * C)); [ring|rewrite S; ring].
  - transitivity ((s * s + c * c) * (B - C)); [ring|rewrite S; ring].
Qed.

(** * Overloads *)
Lemma rel_defined : forall f v cc cb, (cb = None \/ cc <> None) -> exists r, rel_to f v cc cb = Val r /\
  fst r = place f v /\ (forall m, cc = Some m -> cb <> None -> snd r = Some (sandwich 2 (rot (p_t (f_pose f))) m)).
Proof.
  intros f v cc cb [->|H].
  - eexists. split; [reflexivity|]. split; [reflexivity|]. intros m _ N. contradiction.
  - destruct cc as [m|]; [|congruence]. unfold rel_to. destruct cb.
    + eexists. split; [reflexivity|]. split; [reflexivity|]. intros m' E _. injection E as <-. reflexivity.
    + eexists. split; [reflexivity|]. split; [reflexivity|]. intros m' _ N. contradiction.
Qed.
Lemma rel_null : forall f v m, rel_to f v None (Some m) = UB NullDeref.
Proof. reflexivity. Qed.
Lemma rel_same : forall f c b, rel_rv f c b = Val (rel_rv_in_place f c).
Proof. reflexivity. Qed.

(** * Generators *)
Section G.
Variables (E D X : Type) (seed : Z -> E) (fresh : D) (draw : D -> E -> X * D * E).
Notation draw1 := (@draw1 E D X draw). Notation draws := (@draws E D X draw).

Lemma nth_error_upd : forall (A : Type) (l : list A) t a k, (t < length l)%nat ->
  nth_error (firstn t l ++ a :: skipn (S t) l) k = if Nat.eqb t k then Some a else nth_error l k.
Proof.
  intros A l. induction l as [|x l IH]; intros t a k H; cbn in H; [lia|]. destruct t as [|t].
  - destruct k; reflexivity.
  - cbn [firstn]. change (skipn (S (S t)) (x :: l)) with (skipn (S t) l). cbn [app]. destruct k; [reflexivity|]. cbn [nth_error Nat.eqb]. apply IH. lia.
Qed.
Lemma upd_length : forall (A : Type) (l : list A) t a, (t < length l)%nat -> length (firstn t l ++ a :: skipn (S t) l) = length l.
Proof. intros. rewrite app_length, firstn_length. change (length (a :: skipn (S t) l)) with (S (length (skipn (S t) l))). rewrite skipn_length. lia. Qed.

Lemma draws_spec : forall ts g, (forall t, In t ts -> (t < length (g_gauss g))%nat) -> (length (g_gauss g) <= length (g_rand g))%nat ->
  exists xs g', draws ts g = Val (xs, g') /\ length xs = length ts /\
    length (g_gauss g') = length (g_gauss g) /\ length (g_rand g') = length (g_rand g) /\
    forall t d e, nth_error (g_gauss g) t = Some d -> nth_error (g_rand g) t = Some e ->
      by_thread t ts xs = alone draw (count_occ Nat.eq_dec ts t) d e.
Proof.
  induction ts as [|t ts IH]; intros g H L.
  - exists [], g. cbn. auto.
  - assert (T : (t < length (g_gauss g))%nat) by (apply H; left; reflexivity).
    destruct (nth_error (g_gauss g) t) as [d|] eqn:Ed; [|apply nth_error_None in Ed; lia].
    destruct (nth_error (g_rand g) t) as [e|] eqn:Ee; [|apply nth_error_None in Ee; lia].
    set (g1 := Gens (firstn t (g_rand g) ++ snd (draw d e) :: skipn (S t) (g_rand g))
                    (firstn t (g_gauss g) ++ snd (fst (draw d e)) :: skipn (S t) (g_gauss g))).
    assert (D1 : draw1 t g = Val (fst (fst (draw d e)), g1)) by (unfold FrameModel.draw1; rewrite Ed, Ee; reflexivity).
    assert (Lg : length (g_gauss g1) = length (g_gauss g)) by (cbn [g1 g_gauss]; apply upd_length; exact T).
    assert (Lr : length (g_rand g1) = length (g_rand g)) by (cbn [g1 g_rand]; apply upd_length; lia).
    destruct (IH g1) as (xs & g' & Hd & Lx & A & B & C).
    + intros u Hu. rewrite Lg. apply H. right. exact Hu.
    + rewrite Lg, Lr. exact L.
    + exists (fst (fst (draw d e)) :: xs), g'. cbn [FrameModel.draws]. rewrite D1. cbn [obind snd fst]. rewrite Hd. cbn [obind fst snd].
      split; [reflexivity|]. split; [cbn; lia|]. split; [congruence|]. split; [congruence|].
      intros u d0 e0 Hd0 He0. unfold by_thread. cbn [combine filter fst count_occ].
      assert (Kg : nth_error (g_gauss g1) u = if Nat.eqb t u then Some (snd (fst (draw d e))) else nth_error (g_gauss g) u)
        by (cbn [g1 g_gauss]; apply nth_error_upd; exact T).
      assert (Kr : nth_error (g_rand g1) u = if Nat.eqb t u then Some (snd (draw d e)) else nth_error (g_rand g) u)
        by (cbn [g1 g_rand]; apply nth_error_upd; lia).
      destruct (Nat.eq_dec t u) as [->|N].
      * rewrite Nat.eqb_refl in *. rewrite Ed in Hd0. rewrite Ee in He0. injection Hd0 as <-. injection He0 as <-.
        cbn [map snd alone]. f_equal. apply (C u _ _ Kg Kr).
      * apply Nat.eqb_neq in N. rewrite N in *. rewrite Hd0 in Kg. rewrite He0 in Kr. apply (C u _ _ Kg Kr).
Qed.

(** After the first initialisation every thread draws from a generator of its own, whatever the others do. *)
Lemma first_run : forall n s ts, (forall t, In t ts -> (t < n)%nat) ->
  exists xs g, draws ts (initialize seed fresh n s no_gens) = Val (xs, g) /\ length xs = length ts /\
    forall t, (t < n)%nat -> by_thread t ts xs = alone draw (count_occ Nat.eq_dec ts t) fresh (seed (s t)).
Proof.
  intros n s ts H. destruct (draws_spec ts (initialize seed fresh n s no_gens)) as (xs & g & A & B & _ & _ & C).
  - cbn. rewrite repeat_length. exact H.
  - cbn. rewrite repeat_length, map_length, seq_length. lia.
  - exists xs, g. split; [exact A|]. split; [exact B|]. intros t T. apply C; cbn [initialize g_gauss g_rand no_gens app].
    + apply nth_error_repeat. exact T.
    + rewrite nth_error_map. rewrite (nth_error_nth' _ 0%nat) by (rewrite seq_length; exact T). rewrite seq_nth by exact T. reflexivity.
Qed.

(** A later initialisation does not seed the engines that are there. *)
Lemma second_run : forall n s g ts, (n <= length (g_rand g))%nat -> (forall t, In t ts -> (t < n)%nat) ->
  exists xs g', draws ts (initialize seed fresh n s g) = Val (xs, g') /\ length xs = length ts /\
    forall t e, (t < n)%nat -> nth_error (g_rand g) t = Some e -> by_thread t ts xs = alone draw (count_occ Nat.eq_dec ts t) fresh e.
Proof.
  intros n s g ts L H. destruct (draws_spec ts (initialize seed fresh n s g)) as (xs & g' & A & B & _ & _ & C).
  - cbn. rewrite repeat_length. exact H.
  - cbn. rewrite repeat_length, app_length. lia.
  - exists xs, g'. split; [exact A|]. split; [exact B|]. intros t e T Ee. apply C; cbn [initialize g_gauss g_rand].
    + apply nth_error_repeat. exact T.
    + rewrite nth_error_app1 by (apply nth_error_Some; congruence). exact Ee.
Qed.
Lemma too_many : forall n s t, (n <= t)%nat -> draw1 t (initialize seed fresh n s no_gens) = UB OutOfBounds.
Proof.
  intros n s t H. unfold FrameModel.draw1, initialize. cbn [g_gauss]. rewrite (proj2 (nth_error_None _ _)); [reflexivity|]. rewrite repeat_length. exact H.
Qed.
End G.

Lemma variance_kept : forall f v u w, let k := v_S (rel_rv_in_place f v) in let m := v_S v in
  let turn := place (Frame (P2 0 0 (p_t (f_pose f))) (f_cov f) (f_time f) (f_base f)) (u, w) in
  let ru := fst turn in let rw := snd turn in
  ru * (k 0%nat 0%nat * ru + k 0%nat 1%nat * rw) + rw * (k 1%nat 0%nat * ru + k 1%nat 1%nat * rw) =
  u * (m 0%nat 0%nat * u + m 0%nat 1%nat * w) + w * (m 1%nat 0%nat * u + m 1%nat 1%nat * w).
Proof.
  intros f v u w. cbv zeta. unfold place. cbn [f_pose p_x p_y p_t fst snd]. rewrite !Rplus_0_r.
  apply (cov_form (p_t (f_pose f)) (v_S v) u w).
Qed.
Lemma trace_det_kept : forall f v, let k := v_S (rel_rv_in_place f v) in let m := v_S v in
  k 0%nat 0%nat + k 1%nat 1%nat = m 0%nat 0%nat + m 1%nat 1%nat /\
  k 0%nat 0%nat * k 1%nat 1%nat - k 0%nat 1%nat * k 1%nat 0%nat = m 0%nat 0%nat * m 1%nat 1%nat - m 0%nat 1%nat * m 1%nat 0%nat /\
  k 0%nat 1%nat - k 1%nat 0%nat = m 0%nat 1%nat - m 1%nat 0%nat.
Proof. intros f v. apply (cov_trace_det (p_t (f_pose f)) (v_S v)). Qed.
Lemma overloads : forall f c b, rel_rv f c b = Val (rel_rv_in_place f c) /\ v_x (rel_rv_in_place f c) = place f (v_x c) /\
  v_t (rel_rv_in_place f c) = v_t c.
Proof. intros. repeat split. Qed.
Lemma certain_product : forall f g i j, (forall i j, f_cov f i j = 0) -> (forall i j, f_cov g i j = 0) ->
  f_cov (compose f g) i j = f_cov f i j + f_cov g i j.
Proof. intros f g i j F G. rewrite F, G. cbn. ring. Qed.
