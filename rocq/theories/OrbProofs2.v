(** Proofs about binary descriptors: totals, weights of the filters. *)
From Coq Require Import ZArith List Bool QArith Qcanon Lia Arith Permutation.
From Verif Require Import QcLra PermanentSpec PermanentProofs OrbModel OrbSpec OrbProofs.
Import ListNotations.
Local Open Scope Qc_scope.

Fixpoint all_bits (n : nat) : list bits :=
  match n with
  | O => [[]]
  | S n' => map (cons true) (all_bits n') ++ map (cons false) (all_bits n')
  end.
Lemma all_bits_in : forall n d, In d (all_bits n) <-> length d = n.
Proof.
  induction n as [|n IH]; intro d; cbn [all_bits].
  - split; [intros [<-|[]]; reflexivity|destruct d; [left; reflexivity|discriminate]].
  - rewrite in_app_iff, !in_map_iff. split.
    + intros [(x & <- & H)|(x & <- & H)]; cbn; f_equal; apply IH; exact H.
    + destruct d as [|[] d]; [discriminate| |]; intro H; injection H as H; [left|right]; exists d; (split; [reflexivity|apply IH; exact H]).
Qed.
Lemma nodup_cons_map : forall (b : bool) l, NoDup l -> NoDup (map (cons b) l).
Proof.
  intros b l H. induction H as [|x l N H IH]; cbn; constructor; [|exact IH]. rewrite in_map_iff. intros (y & E & Hy). injection E as <-. contradiction.
Qed.
Lemma nodup_app : forall (l m : list bits), NoDup l -> NoDup m -> (forall x, In x l -> ~ In x m) -> NoDup (l ++ m).
Proof.
  induction l as [|x l IH]; intros m L M D; [exact M|]. inversion L; subst. cbn. constructor.
  - rewrite in_app_iff. intros [H|H]; [contradiction|]. apply (D x); [left; reflexivity|exact H].
  - apply IH; [assumption|exact M|]. intros y Hy. apply D. right. exact Hy.
Qed.
Lemma all_bits_nodup : forall n, NoDup (all_bits n).
Proof.
  induction n as [|n IH]; cbn [all_bits]; [constructor; [intros []|constructor]|].
  apply nodup_app; [apply nodup_cons_map; exact IH|apply nodup_cons_map; exact IH|].
  intros x H K. apply in_map_iff in H. apply in_map_iff in K. destruct H as (u & <- & _). destruct K as (w & E & _). discriminate.
Qed.
Lemma enumerates_perm : forall l, enumerates l -> Permutation l (all_bits 256).
Proof.
  intros l (N & H). apply NoDup_Permutation; [exact N|apply all_bits_nodup|]. intro d. rewrite H, all_bits_in. reflexivity.
Qed.

Lemma binomial : forall (x y : Qc) n a, length a = n ->
  qsum (map (fun b => x ^ distance a b * y ^ (n - distance a b)) (all_bits n)) = (x + y) ^ n.
Proof.
  intros x y. induction n as [|n IH]; intros [|c a] H; try discriminate; [cbn; ring|]. injection H as H.
  cbn [all_bits]. rewrite map_app, qsum_app, !map_map. specialize (IH a H). cbn [Qcpower]. rewrite <- IH.
  assert (D : forall b, In b (all_bits n) -> (distance a b <= n)%nat).
  { intros b Hb. apply all_bits_in in Hb. unfold distance. pose proof (count_le (bitwise xorb a b)) as C.
    rewrite bitwise_length in C by congruence. lia. }
  assert (S1 : qsum (map (fun b => x ^ S (distance a b) * y ^ (S n - S (distance a b))) (all_bits n)) =
               x * qsum (map (fun b => x ^ distance a b * y ^ (n - distance a b)) (all_bits n))).
  { rewrite <- qsum_scale. apply qsum_ext. intros b Hb. replace (S n - S (distance a b))%nat with (n - distance a b)%nat by lia. cbn [Qcpower]. ring. }
  assert (S2 : qsum (map (fun b => x ^ distance a b * y ^ (S n - distance a b)) (all_bits n)) =
               y * qsum (map (fun b => x ^ distance a b * y ^ (n - distance a b)) (all_bits n))).
  { rewrite <- qsum_scale. apply qsum_ext. intros b Hb. specialize (D b Hb).
    replace (S n - distance a b)%nat with (S (n - distance a b))%nat by lia. cbn [Qcpower]. ring. }
  set (A := map (fun b => x ^ distance a b * y ^ (S n - distance a b)) (all_bits n)) in S2.
  set (B := map (fun b => x ^ S (distance a b) * y ^ (S n - S (distance a b))) (all_bits n)) in S1.
  destruct c.
  - change (qsum A + qsum B = (x + y) * qsum (map (fun b => x ^ distance a b * y ^ (n - distance a b)) (all_bits n))).
    rewrite S1, S2. ring.
  - change (qsum B + qsum A = (x + y) * qsum (map (fun b => x ^ distance a b * y ^ (n - distance a b)) (all_bits n))).
    rewrite S1, S2. ring.
Qed.
Lemma pow_1 : forall n, (1 : Qc) ^ n = 1.
Proof. induction n as [|n IH]; cbn [Qcpower]; [reflexivity|]. rewrite IH. ring. Qed.

(** The channel is a probability distribution. *)
Lemma channel_total : forall p a l, descriptor a -> enumerates l -> qsum (map (channel p a) l) = 1.
Proof.
  intros p a l A E. rewrite (qsum_perm _ _ (Permutation_map (channel p a) (enumerates_perm l E))).
  rewrite (qsum_ext (channel p a) (fun b => p ^ distance a b * (1 - p) ^ (256 - distance a b))).
  - rewrite binomial by exact A. replace (p + (1 - p)) with 1 by ring. apply pow_1.
  - intros b Hb. apply all_bits_in in Hb. unfold channel. rewrite distance_differs by assumption. reflexivity.
Qed.
Lemma uniform_channel : forall a b, descriptor a -> descriptor b -> uniform = channel (Q2Qc (1 # 2)) a b.
Proof.
  intros a b A B. unfold uniform, channel. rewrite <- distance_differs by assumption. pose proof (distance_le a b A B) as L.
  replace (1 - Q2Qc (1 # 2)) with (Q2Qc (1 # 2)) by (apply Qc_is_canon; vm_compute; reflexivity).
  rewrite <- pow_add. f_equal. lia.
Qed.
Lemma likelihood_total : forall a l, descriptor a -> enumerates l -> qsum (map (likelihood a) l) = kfac.
Proof.
  intros a l A E. rewrite (qsum_ext (likelihood a) (fun b => kfac * channel pflip a b)).
  - rewrite qsum_scale, channel_total by assumption. ring.
  - intros b Hb. apply likelihood_channel; [exact A|]. apply E. exact Hb.
Qed.
Lemma false_alarm_total : forall l, enumerates l -> qsum (map (fun _ => false_alarm) l) = kfac.
Proof.
  intros l E. assert (A : descriptor (repeat false 256)) by apply repeat_length.
  rewrite (qsum_ext (fun _ => false_alarm) (fun b => kfac * channel (Q2Qc (1 # 2)) (repeat false 256) b)).
  - rewrite qsum_scale, channel_total by assumption. ring.
  - intros b Hb. rewrite false_alarm_uniform. f_equal. apply uniform_channel; [exact A|]. apply E. exact Hb.
Qed.
Lemma pow_pow : forall (x : Qc) m n, x ^ (m * n) = (x ^ m) ^ n.
Proof. intros x m n. rewrite Nat.mul_comm. induction n as [|n IH]; cbn [Nat.mul Qcpower]; [reflexivity|]. rewrite pow_add, IH. reflexivity. Qed.
Lemma pow_gt : forall (x : Qc) n, 1 < x -> 1 < x ^ S n.
Proof. intros x n H. induction n as [|n IH]; cbn [Qcpower] in *; [qclra|]. qcnra. Qed.
Lemma kfac_big : 1 < kfac.
Proof.
  unfold kfac. change 256%nat with (8 * 32)%nat. rewrite pow_pow, <- pow_mul. apply (pow_gt _ 31). vm_compute. reflexivity.
Qed.

Lemma totals : forall l, enumerates l -> (forall a, descriptor a -> 1 < qsum (map (likelihood a) l)) /\
  1 < qsum (map (fun _ => false_alarm) l) /\ (forall a, descriptor a -> qsum (map (likelihood a) l) = qsum (map (fun _ => false_alarm) l)).
Proof.
  intros l E. rewrite false_alarm_total by exact E. split; [|split; [apply kfac_big|]]; intros a A; rewrite likelihood_total by assumption;
    [apply kfac_big|reflexivity].
Qed.

(** * Weights *)

(** A measurement z against landmarks with prior weight w and spatial likelihood g, over clutter c: the
    PHD weight of each landmark. *)
Definition phd_weight (f : bits -> bits -> Qc) (u : Qc) (c : Qc) (z : bits) (ls : list (Qc * Qc * bits)) (i : Qc * Qc * bits) : Qc :=
  fst (fst i) * (snd (fst i) * f (snd i) z) /
  (c * u + qsum (map (fun l => fst (fst l) * (snd (fst l) * f (snd l) z)) ls)).

Lemma phd_weights : forall c z ls i, descriptor z -> (forall l, In l ls -> descriptor (snd l)) -> In i ls ->
  c * uniform + qsum (map (fun l => fst (fst l) * (snd (fst l) * channel pflip (snd l) z)) ls) <> 0 ->
  fst (fst i) * (snd (fst i) * likelihood (snd i) z) /
    (c * false_alarm + qsum (map (fun l => fst (fst l) * (snd (fst l) * likelihood (snd l) z)) ls)) =
  fst (fst i) * (snd (fst i) * channel pflip (snd i) z) /
    (c * uniform + qsum (map (fun l => fst (fst l) * (snd (fst l) * channel pflip (snd l) z)) ls)).
Proof.
  intros c z ls i Z D I N. rewrite likelihood_channel by (apply D || exact Z; exact I).
  rewrite (qsum_ext (fun l => fst (fst l) * (snd (fst l) * likelihood (snd l) z))
                    (fun l => kfac * (fst (fst l) * (snd (fst l) * channel pflip (snd l) z)))).
  - rewrite qsum_scale, false_alarm_uniform. set (S0 := qsum _) in *. pose proof kfac_pos as K.
    replace (c * (kfac * uniform) + kfac * S0) with (kfac * (c * uniform + S0)) by ring.
    generalize dependent kfac. intros kf K. generalize dependent uniform. intros un N.
    assert (kf <> 0) by (intro E; apply (Qclt_not_eq _ _ K); symmetry; exact E). field. split; assumption.
  - intros l Hl. rewrite likelihood_channel by (apply D || exact Z; exact Hl). ring.
Qed.

(** The likelihood never vanishes, so the distance is always written. *)
Lemma likelihood_pos : forall a b, 0 < likelihood a b.
Proof.
  intros. unfold likelihood. rewrite base_val. assert (0 < (1 / c11) ^ 32) by (apply pow_pos; reflexivity).
  assert (0 < (Q2Qc (10 # 11)) ^ distance a b) by (apply pow_pos; reflexivity). qcnra.
Qed.
Lemma same_likelihood : forall (X : Type) (g : X -> X -> Qc * Qc) a b,
  lmk_likelihood g a b = (fst (meas_likelihood g a b), Some (snd (meas_likelihood g a b))).
Proof.
  intros X g a b. unfold lmk_likelihood, meas_likelihood. destruct (Qc_eq_dec _ 0) as [E|_]; [|reflexivity].
  pose proof (likelihood_pos (d_desc a) (d_desc b)) as P. exfalso. apply (Qclt_not_eq _ _ P). symmetry. exact E.
Qed.



Lemma distance_metric : forall a b c, descriptor a -> descriptor b -> descriptor c ->
  (distance a b = 0%nat <-> a = b) /\ distance a b = distance b a /\ (distance a c <= distance a b + distance b c)%nat /\
  (distance a b <= 256)%nat.
Proof.
  intros a b c A B C. unfold descriptor in *. split; [apply distance_zero; congruence|]. split; [apply distance_sym|].
  split; [apply distance_triangle; congruence|apply distance_le; assumption].
Qed.
Lemma likelihood_order : forall a b c d, (likelihood a b < likelihood c d <-> (distance c d < distance a b)%nat) /\
  likelihood a b = likelihood b a /\ 0 < likelihood a b.
Proof. intros. split; [apply likelihood_decreasing|]. split; [apply likelihood_sym|apply likelihood_pos]. Qed.
Lemma common_factor : exists K, 0 < K /\ false_alarm = K * uniform /\
  forall a b, descriptor a -> descriptor b -> likelihood a b = K * channel (Q2Qc (10 # 21)) a b.
Proof. exists kfac. split; [apply kfac_pos|]. split; [apply false_alarm_uniform|apply likelihood_channel]. Qed.

Lemma never_random : exists d, descriptor d /\ forall s k, (forall v, 0 <= s v < 2 ^ 31)%Z -> random s k <> d.
Proof.
  exists (repeat true 256). split; [apply repeat_length|]. intros s k R E. pose proof (random_gaps s k 0 R ltac:(lia)) as G. rewrite E in G. discriminate.
Qed.
Lemma never_sampled : exists d e, descriptor d /\ descriptor e /\ distance d e = 1%nat /\
  forall s k, (forall v, 0 <= s v < 2 ^ 31)%Z -> sample s k d <> e.
Proof.
  exists (repeat false 256), (repeat false 31 ++ true :: repeat false 224). split; [apply repeat_length|]. split; [reflexivity|]. split; [reflexivity|].
  intros s k R E. pose proof (sample_gaps s k (repeat false 256) 0 R ltac:(apply repeat_length) ltac:(lia)) as G. rewrite E in G. discriminate.
Qed.
Lemma bit_of : forall (b : bool) n, Z.testbit (Z.b2z b * 2 ^ Z.of_nat n) (Z.of_nat n) = b.
Proof. intros b n. rewrite Z.mul_pow2_bits by lia. replace (Z.of_nat n - Z.of_nat n)%Z with 0%Z by lia. apply Z.b2z_bit0. Qed.
Lemma one_in_eight : forall s k j i, (j < 8)%nat -> (i < 31)%nat -> (forall v, 0 <= s v < 2 ^ 31)%Z ->
  let flips b := negb (eqb (nth (32 * j + i) (sample b k (repeat false 256)) false) false) in
  let put (x y z : bool) : nat -> Z := fun v =>
    (if (v =? k + 7 - j)%nat then Z.b2z x * 2 ^ Z.of_nat i else if (v =? k + 15 - j)%nat then Z.b2z y * 2 ^ Z.of_nat i
     else if (v =? k + 23 - j)%nat then Z.b2z z * 2 ^ Z.of_nat i else s v)%Z in
  length (filter (fun t => flips (put (fst (fst t)) (snd (fst t)) (snd t))) triples) = 1%nat /\ length triples = 8%nat.
Proof.
  intros s k j i J I R flips put. split; [|reflexivity].
  assert (R' : forall x y z v, (0 <= put x y z v < 2 ^ 31)%Z).
  { intros x y z v. assert (B : forall b : bool, (0 <= Z.b2z b * 2 ^ Z.of_nat i < 2 ^ 31)%Z).
    { intro b. assert (P : (0 < 2 ^ Z.of_nat i < 2 ^ 31)%Z) by (split; [apply Z.pow_pos_nonneg; lia|apply Z.pow_lt_mono_r; lia]). destruct b; cbn [Z.b2z]; lia. }
    unfold put. destruct (_ =? _)%nat; [apply B|]. destruct (_ =? _)%nat; [apply B|]. destruct (_ =? _)%nat; [apply B|apply R]. }
  assert (F : forall x y z, flips (put x y z) = (x && y && z)%bool).
  { intros x y z. unfold flips. destruct (sample_bits (put x y z) k (repeat false 256) (R' x y z) (repeat_length _ _)) as (_ & B).
    rewrite B by lia. rewrite nth_repeat.
    assert (P1 : put x y z (k + 7 - j)%nat = (Z.b2z x * 2 ^ Z.of_nat i)%Z) by (unfold put; rewrite Nat.eqb_refl; reflexivity).
    assert (P2 : put x y z (k + 15 - j)%nat = (Z.b2z y * 2 ^ Z.of_nat i)%Z).
    { unfold put. destruct (Nat.eqb_spec (k + 15 - j) (k + 7 - j)); [lia|]. rewrite Nat.eqb_refl. reflexivity. }
    assert (P3 : put x y z (k + 23 - j)%nat = (Z.b2z z * 2 ^ Z.of_nat i)%Z).
    { unfold put. destruct (Nat.eqb_spec (k + 23 - j) (k + 7 - j)); [lia|]. destruct (Nat.eqb_spec (k + 23 - j) (k + 15 - j)); [lia|].
      rewrite Nat.eqb_refl. reflexivity. }
    rewrite P1, P2, P3, !bit_of. destruct x, y, z; reflexivity. }
  unfold triples. cbn [flat_map map app filter fst snd]. rewrite !F. reflexivity.
Qed.

Lemma round_trip : forall (P L Z : Type) (m : P -> L -> bool * Z) (i : P -> Z -> L) p z,
  (forall q, snd (m p (i p q)) = q) -> desc_measure m p (desc_inverse i p z) = (fst (m p (i p (d_vec z))), z).
Proof. intros P L Z m i p (v, d) H. unfold desc_measure, desc_inverse. cbn [d_vec d_desc snd]. rewrite H. reflexivity. Qed.
Lemma clutter_desc : forall (Z : Type) (c : Z -> Qc) cells i l, enumerates l -> qsum (map c cells) = i -> 0 < i ->
  desc_integral i < qsum (map (fun z => qsum (map (fun d => desc_clutter c (Described z d)) l)) cells).
Proof.
  intros Z c cells i l E I P.
  rewrite (qsum_ext (fun z => qsum (map (fun d => desc_clutter c (Described z d)) l)) (fun z => kfac * c z)).
  - rewrite qsum_scale, I. unfold desc_integral. pose proof kfac_big. qcnra.
  - intros z _. unfold desc_clutter. cbn [d_vec]. rewrite (qsum_scale (c z) (fun _ => false_alarm)), false_alarm_total by exact E. ring.
Qed.
Lemma weights_ex : let z := repeat false 256 in let ls := [(Q2Qc (1 # 2), 1, z)] in
  descriptor z /\ (forall l, In l ls -> descriptor (snd l)) /\
  0 * uniform + qsum (map (fun l => fst (fst l) * (snd (fst l) * channel (Q2Qc (10 # 21)) (snd l) z)) ls) <> 0.
Proof.
  intros z ls. assert (D : descriptor z) by apply repeat_length. split; [exact D|]. split; [intros l [<-|[]]; exact D|].
  assert (P : 0 < channel (Q2Qc (10 # 21)) z z).
  { unfold channel. rewrite <- distance_differs by exact D. replace (distance z z) with 0%nat by (symmetry; apply distance_zero; reflexivity).
    change (Q2Qc (10 # 21) ^ 0) with 1. pose proof (pow_pos (1 - Q2Qc (10 # 21)) (256 - 0) eq_refl). qclra. }
  unfold ls. cbn [map qsum fold_right fst snd]. clearbody z. set (x := channel _ z z) in *. clearbody x. generalize uniform. intros u E.
  revert P. replace x with (Q2Qc 2 * (0 * u + (Q2Qc (1 # 2) * (1 * x) + 0))); [rewrite E; intro P; apply (Qclt_not_eq _ _ P); ring|].
  transitivity (Q2Qc 2 * Q2Qc (1 # 2) * x); [ring|]. replace (Q2Qc 2 * Q2Qc (1 # 2)) with 1 by (apply Qc_is_canon; reflexivity). ring.
Qed.
