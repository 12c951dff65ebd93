(** The CB-MeMBer map update: probabilities, mixtures, unused measurements. *)
From Coq Require Import ZArith List Bool Arith QArith Qcanon Lia.
From Verif Require Import Base ListUtil QcLra PermanentSpec PermanentProofs RfsProofs LmbModel LmbSpec LmbEvents LmbProofs LmbProofs2
  MemberModel MemberSpec.
Import ListNotations.
Local Open Scope Qc_scope.

Lemma mul_nonneg : forall a b : Qc, 0 <= a -> 0 <= b -> 0 <= a * b.
Proof. intros a b Ha Hb. qcnra. Qed.
Lemma mul_pos : forall a b : Qc, 0 < a -> 0 < b -> 0 < a * b.
Proof. intros a b Ha Hb. qcnra. Qed.
Lemma div_nonneg : forall a b : Qc, 0 <= a -> 0 < b -> 0 <= a / b.
Proof. intros a b Ha Hb. apply Qcle_div; [exact Hb|]. qclra. Qed.
Lemma div_pos : forall a b : Qc, 0 < a -> 0 < b -> 0 < a / b.
Proof. intros a b Ha Hb. apply Qclt_div; [exact Hb|]. qclra. Qed.
Lemma qsum_zero_all : forall {X} (f : X -> Qc) l, (forall x, In x l -> f x = 0) -> qsum (map f l) = 0.
Proof.
  intros X f. induction l as [|x l IH]; intros H; [reflexivity|]. cbn [map]. rewrite qsum_cons, (H x (or_introl eq_refl)), IH; [ring|].
  intros y Hy. apply H. now right.
Qed.
Lemma qsum_zero_inv : forall {X} (f : X -> Qc) l, (forall x, In x l -> 0 <= f x) -> qsum (map f l) = 0 ->
  forall x, In x l -> f x = 0.
Proof.
  intros X f l Hn H x Hx. destruct (Qclt_le_dec 0 (f x)) as [C|C].
  - pose proof (qsum_pos f l x Hn Hx C). exfalso. qclra.
  - pose proof (Hn x Hx). qclra.
Qed.
Lemma qsum_filter : forall {X} (f : X -> Qc) p l, (forall x, In x l -> p x = false -> f x = 0) ->
  qsum (map f (filter p l)) = qsum (map f l).
Proof.
  intros X f p. induction l as [|x l IH]; intros H; [reflexivity|]. cbn [filter map]. rewrite qsum_cons.
  assert (IH' := IH (fun y Hy => H y (or_intror Hy))). destruct (p x) eqn:E; cbn [map]; rewrite ?qsum_cons, IH'.
  - reflexivity.
  - rewrite (H x (or_introl eq_refl) E). ring.
Qed.
Section Proofs.
Context {G : Type}.
Variable probDet : G -> Qc.
Variable correct : nat -> G -> option (G * Qc).
Variable clutter : nat -> Qc.
Notation pd := (pd_of probDet).
Notation lik := (lik_of correct).
Notation st t := (Seen_track (tP t) (pd t) (tG t)).

Lemma cb_pd_ok : forall t : track G, cb_pd probDet t = pd t.
Proof. intros t. unfold cb_pd, pd_of. apply (fold_plus0 (fun g => fst g * probDet (snd g))). Qed.

(** The tracks in view. *)
Definition inview (ts : list (track G)) : list (track G) := filter (fun t => Qcltb 0 (pd t)) ts.
Definition old_track (t : track G) : track G := Track (tP t * (1 - pd t) / (1 - tP t * pd t)) (tG t).

Lemma legacies_ok : forall ts, (forall t, In t ts -> tP t * pd t <> 1) ->
  legacies probDet ts = Val (map old_track ts, map (fun t => st t) (inview ts)).
Proof.
  induction ts as [|t ts IH]; intros H; [reflexivity|]. cbn [legacies]. unfold legacy. rewrite cb_pd_ok.
  destruct (Qc_eq_dec (1 - tP t * pd t) 0) as [C|C].
  - exfalso. apply (H t (or_introl eq_refl)). qclra.
  - rewrite (IH (fun u Hu => H u (or_intror Hu))). cbn [obind fst snd map inview filter]. unfold inview.
    destruct (Qcltb 0 (pd t)); reflexivity.
Qed.

Definition corrected (s : @seen_track G) (z : nat) (gs : list (Qc * G)) : list (option Qc * G) :=
  flat_map (fun g => match correct z (snd g) with Some (g', l) => [(new_weight s l (fst g), g')] | None => [] end) gs.
Lemma gauss_fold : forall s z gs r l, fold_left (one_gauss correct s z) gs (r, l) =
  (r + s_pd s * qsum (map (fun g => match correct z (snd g) with Some (_, l) => l * fst g | None => 0 end) gs),
   l ++ corrected s z gs).
Proof.
  intros s z. induction gs as [|g gs IH]; intros r l; cbn [fold_left map corrected flat_map].
  - rewrite qsum_nil, app_nil_r. f_equal. ring.
  - unfold one_gauss at 2. cbn [fst snd]. rewrite qsum_cons. fold (corrected s z gs).
    destruct (correct z (snd g)) as [[g' l0]|]; rewrite IH; f_equal; try ring.
    now rewrite <- app_assoc.
Qed.
Lemma track_fold : forall z ts a, fold_left (one_track correct z) (map (fun t => st t) ts) a =
  Meas (m_num a + qsum (map (fun t => tP t * (1 - tP t) * (pd t * lik t z) / ((1 - tP t * pd t) * (1 - tP t * pd t))) ts))
       (m_den a + qsum (map (fun t => tP t * (pd t * lik t z) / (1 - tP t * pd t)) ts))
       (m_gs a ++ flat_map (fun t => corrected (st t) z (tG t)) ts).
Proof.
  intros z. induction ts as [|t ts IH]; intros a; cbn [fold_left map flat_map].
  - rewrite !qsum_nil, app_nil_r. destruct a as [x y l]; cbn [m_num m_den m_gs]. f_equal; ring.
  - rewrite IH. unfold one_track. cbn [s_g s_p s_pd]. rewrite gauss_fold. cbn [fst snd m_num m_den m_gs s_pd].
    rewrite !qsum_cons. fold (lik t z). f_equal.
    + unfold Qcdiv. ring.
    + unfold Qcdiv. ring.
    + now rewrite app_assoc.
Qed.

Lemma inview_sum : forall f ts, (forall t, In t ts -> 0 <= pd t) -> (forall t, pd t = 0 -> f t = 0) ->
  qsum (map f (inview ts)) = qsum (map f ts).
Proof.
  intros f ts Hn H. apply qsum_filter. intros t Ht E. apply H. apply Qcltb_false in E. pose proof (Hn t Ht). qclra.
Qed.
Definition gs_of (ts : list (track G)) (z : nat) : list (option Qc * G) :=
  flat_map (fun t => corrected (st t) z (tG t)) (inview ts).

Lemma one_meas_ok : forall ts z, (forall t, In t ts -> 0 <= pd t) -> cb_den probDet correct clutter ts z <> 0 ->
  one_meas correct clutter (map (fun t => st t) (inview ts)) z =
  Val (New (cb_num probDet correct ts z / cb_den probDet correct clutter ts z) (norm_weights (gs_of ts z))).
Proof.
  intros ts z Hn Hd. unfold one_meas. rewrite track_fold. cbn [m_num m_den m_gs app].
  assert (E1 : 0 + qsum (map (fun t => tP t * (pd t * lik t z) / (1 - tP t * pd t)) (inview ts)) + clutter z =
          cb_den probDet correct clutter ts z).
  { unfold cb_den. rewrite inview_sum; [ring|exact Hn|]. intros t E. rewrite E. unfold Qcdiv. ring. }
  assert (E2 : 0 + qsum (map (fun t => tP t * (1 - tP t) * (pd t * lik t z) / ((1 - tP t * pd t) * (1 - tP t * pd t))) (inview ts)) =
          cb_num probDet correct ts z).
  { unfold cb_num. rewrite inview_sum; [ring|exact Hn|]. intros t E. rewrite E. unfold Qcdiv. ring. }
  rewrite E1, E2. destruct (Qc_eq_dec (cb_den probDet correct clutter ts z) 0) as [C|C]; [contradiction|reflexivity].
Qed.

Definition made (ts : list (track G)) (z : nat) : new_track :=
  New (cb_num probDet correct ts z / cb_den probDet correct clutter ts z) (norm_weights (gs_of ts z)).
Lemma all_meas_ok : forall ts zs, (forall t, In t ts -> 0 <= pd t) -> (forall z, In z zs -> cb_den probDet correct clutter ts z <> 0) ->
  all_meas correct clutter (map (fun t => st t) (inview ts)) zs = Val (map (made ts) zs).
Proof.
  intros ts. induction zs as [|z zs IH]; intros Hn Hd; [reflexivity|]. cbn [all_meas].
  rewrite (one_meas_ok ts z Hn (Hd z (or_introl eq_refl))). cbn [obind].
  rewrite (IH Hn (fun y Hy => Hd y (or_intror Hy))). reflexivity.
Qed.

Section Good.
Variable nZ : nat.
Variable ts : list (track G).
Hypothesis Hs : sensor_ok probDet correct clutter nZ.
Hypothesis Hg : List.Forall fair ts.
Hypothesis H1 : forall t, In t ts -> tP t * pd t <> 1.

Lemma good_in : forall t, In t ts -> fair t.
Proof using Hg. now apply Forall_forall. Qed.
Lemma pd_01 : forall t, fair t -> 0 <= pd t <= 1.
Proof using Hs.
  intros t (_ & Hw & Hsum). destruct Hs as (Hp & _ & _). unfold pd_of. split.
  - apply qsum_map_nonneg. intros [w g] Hin. cbn [fst snd]. apply mul_nonneg; [exact (Hw w g Hin)|]. apply Hp.
  - refine (Qcle_trans _ _ _ _ Hsum). apply qsum_le. intros [w g] Hin. cbn [fst snd]. pose proof (Hw w g Hin). pose proof (Hp g) as [A B]. qcnra.
Qed.
Lemma lik_nonneg : forall t z, fair t -> 0 <= lik t z.
Proof using Hs.
  intros t z (_ & Hw & _). destruct Hs as (_ & Hl & _). unfold lik_of. apply qsum_map_nonneg. intros [w g] Hin. cbn [fst snd].
  destruct (correct z g) as [[g' l]|] eqn:E; [|qclra]. apply mul_nonneg; [exact (Hl z g g' l E)|exact (Hw w g Hin)].
Qed.
Lemma miss_pos : forall t, In t ts -> 0 < 1 - tP t * pd t.
Proof using Hs Hg H1.
  intros t Ht. pose proof (good_in t Ht) as Gt. destruct (pd_01 t Gt) as [A B]. destruct Gt as ((C & D) & _).
  pose proof (H1 t Ht) as N. destruct (Qclt_le_dec 0 (1 - tP t * pd t)) as [P|P]; [exact P|]. exfalso. apply N.
  assert (tP t * pd t <= 1) by qcnra. qclra.
Qed.
Lemma pd_in : forall t, In t ts -> 0 <= pd t.
Proof using Hs Hg. intros t Ht. apply (pd_01 t (good_in t Ht)). Qed.

Definition dterm (z : nat) (t : track G) : Qc := tP t * (pd t * lik t z) / (1 - tP t * pd t).
Definition nterm (z : nat) (t : track G) : Qc :=
  tP t * (1 - tP t) * (pd t * lik t z) / ((1 - tP t * pd t) * (1 - tP t * pd t)).
Lemma dterm_nonneg : forall z t, In t ts -> 0 <= dterm z t.
Proof using Hs Hg H1.
  intros z t Ht. pose proof (good_in t Ht) as Gt. unfold dterm. apply div_nonneg; [|exact (miss_pos t Ht)].
  apply mul_nonneg; [apply Gt|]. apply mul_nonneg; [exact (pd_in t Ht)|exact (lik_nonneg t z Gt)].
Qed.
Lemma nterm_eq : forall z t, In t ts -> nterm z t = dterm z t * ((1 - tP t) / (1 - tP t * pd t)).
Proof using Hs Hg H1.
  intros z t Ht. unfold nterm, dterm. field. exact (Qcpos_neq _ (miss_pos t Ht)).
Qed.
Lemma rest_01 : forall t, In t ts -> 0 <= (1 - tP t) / (1 - tP t * pd t) <= 1.
Proof using Hs Hg H1.
  intros t Ht. pose proof (good_in t Ht) as Gt. pose proof (miss_pos t Ht) as P. pose proof (pd_01 t Gt) as [A B].
  destruct Gt as ((C & D) & _). split.
  - apply div_nonneg; [qclra|exact P].
  - apply Qcdiv_le; [exact P|]. qcnra.
Qed.
Lemma nterm_range : forall z t, In t ts -> 0 <= nterm z t <= dterm z t.
Proof using Hs Hg H1.
  intros z t Ht. rewrite nterm_eq by exact Ht. pose proof (rest_01 t Ht) as [A B]. pose proof (dterm_nonneg z t Ht).
  split; qcnra.
Qed.
Lemma den_pos : forall z, (z < nZ)%nat -> 0 < cb_den probDet correct clutter ts z.
Proof using Hs Hg H1.
  intros z Hz. unfold cb_den. pose proof (qsum_map_nonneg (dterm z) ts (fun t Ht => dterm_nonneg z t Ht)) as P. unfold dterm in P.
  destruct Hs as (_ & _ & Hc). pose proof (Hc z Hz). qclra.
Qed.
Lemma num_range : forall z, 0 <= cb_num probDet correct ts z /\
  cb_num probDet correct ts z <= qsum (map (dterm z) ts).
Proof using Hs Hg H1.
  intros z. split.
  - apply (qsum_map_nonneg (nterm z)). intros t Ht. apply (nterm_range z t Ht).
  - apply (qsum_le (nterm z)). intros t Ht. apply (nterm_range z t Ht).
Qed.
Lemma made_range : forall z, (z < nZ)%nat -> 0 <= n_P (made ts z) <= 1.
Proof using Hs Hg H1.
  intros z Hz. pose proof (den_pos z Hz) as D. pose proof (num_range z) as [A B]. cbn [n_P made]. split.
  - now apply div_nonneg.
  - apply Qcdiv_le; [exact D|]. destruct Hs as (_ & _ & Hc). pose proof (Hc z Hz) as C. unfold cb_den, dterm in *. qclra.
Qed.
Lemma update_val : ts <> [] ->
  update_map probDet correct clutter nZ ts =
  Val (Updated (map old_track ts) (map (made ts) (seq 0 nZ)) (unused_from 0 (map (made ts) (seq 0 nZ)))).
Proof using Hs Hg H1.
  intros Ne. unfold update_map. destruct ts as [|t0 ts0] eqn:Ets; [contradiction|]. rewrite <- Ets in *.
  rewrite (legacies_ok ts H1). cbn [obind fst snd]. rewrite all_meas_ok; [reflexivity|exact pd_in|].
  intros z Hz. apply in_seq in Hz. intros E. pose proof (den_pos z ltac:(lia)). rewrite E in H. qclra.
Qed.

Lemma old_range : forall t, In t ts -> 0 <= tP (old_track t) <= tP t /\
  (0 < tP t -> tP t < 1 -> 0 < pd t -> tP (old_track t) < tP t).
Proof using Hs Hg H1.
  intros t Ht. pose proof (good_in t Ht) as Gt. pose proof (miss_pos t Ht) as P. pose proof (pd_01 t Gt) as [A B].
  destruct Gt as ((C & D) & _). cbn [tP old_track]. split; [split|].
  - apply div_nonneg; [|exact P]. apply mul_nonneg; qclra.
  - apply Qcdiv_le; [exact P|].
    assert (E : tP t * (1 - tP t * pd t) - tP t * (1 - pd t) = tP t * pd t * (1 - tP t)) by ring.
    assert (0 <= tP t * pd t * (1 - tP t)) by (apply mul_nonneg; [apply mul_nonneg; assumption|qclra]). qclra.
  - intros P0 P1 Q0. apply Qcdiv_lt; [exact P|].
    assert (E : tP t * (1 - tP t * pd t) - tP t * (1 - pd t) = tP t * pd t * (1 - tP t)) by ring.
    assert (0 < tP t * pd t * (1 - tP t)) by (apply mul_pos; [apply mul_pos; assumption|qclra]). qclra.
Qed.

Lemma unused_in : forall l k z, In z (unused_from k l) <-> exists i t, z = (k + i)%nat /\ nth_error l i = Some t /\ @n_P G t = 0.
Proof using.
  induction l as [|t l IH]; intros k z; cbn [unused_from].
  - split; [intros []|]. intros (i & t & _ & E & _). now destruct i.
  - assert (Hr : In z (unused_from (S k) l) <-> exists i t0, z = (k + S i)%nat /\ nth_error l i = Some t0 /\ n_P t0 = 0).
    { rewrite IH. split; intros (i & t0 & E & R); exists i, t0; (split; [lia|exact R]). }
    destruct (Qc_eq_dec (n_P t) 0) as [C|C].
    + cbn [In]. rewrite Hr. split.
      * intros [<-|(i & t0 & E & R)]; [exists 0%nat, t|exists (S i), t0]; (split; [lia|]); cbn [nth_error]; auto.
      * intros ([|i] & t0 & E & N & R); cbn [nth_error] in N; [left; lia|right; exists i, t0; auto].
    + rewrite Hr. split.
      * intros (i & t0 & E & R). exists (S i), t0. auto.
      * intros ([|i] & t0 & E & N & R); cbn [nth_error] in N; [|exists i, t0; auto]. injection N as <-. contradiction.
Qed.
Lemma unused_nodup : forall (l : list (@new_track G)) k, NoDup (unused_from k l) /\ forall z, In z (unused_from k l) -> (k <= z < k + length l)%nat.
Proof using.
  induction l as [|t l IH]; intros k; cbn [unused_from length]; [split; [constructor|intros z []]|].
  destruct (IH (S k)) as [A B]. destruct (Qc_eq_dec (n_P t) 0).
  - split; [constructor; [|exact A]|].
    + intros C. apply B in C. lia.
    + intros z [<-|C]; [lia|]. apply B in C. lia.
  - split; [exact A|]. intros z C. apply B in C. lia.
Qed.

Lemma made_zero : forall z, (z < nZ)%nat -> (forall t, In t ts -> tP t < 1) ->
  n_P (made ts z) = 0 <-> ~ exists t, In t ts /\ explains probDet correct t z.
Proof using Hs Hg H1.
  intros z Hz Hp. pose proof (den_pos z Hz) as D.
  assert (E0 : n_P (made ts z) = 0 <-> cb_num probDet correct ts z = 0).
  { cbn [n_P made]. split; intros E.
    - rewrite <- (Qcdiv_mul (cb_num probDet correct ts z) (cb_den probDet correct clutter ts z)) by (apply Qcpos_neq; exact D).
      rewrite E. ring.
    - rewrite E. unfold Qcdiv. ring. }
  rewrite E0. split.
  - intros E (t & Ht & P1 & P2 & P3).
    pose proof (qsum_zero_inv (nterm z) ts (fun t Ht => proj1 (nterm_range z t Ht)) E t Ht) as N.
    assert (0 < nterm z t).
    { unfold nterm. pose proof (miss_pos t Ht). apply div_pos; [|now apply mul_pos].
      apply mul_pos; [apply mul_pos; [exact P1|]|now apply mul_pos]. pose proof (Hp t Ht). qclra. }
    rewrite N in H. qclra.
  - intros N. apply (qsum_zero_all (nterm z)). intros t Ht. unfold nterm. pose proof (good_in t Ht) as Gt.
    pose proof (pd_in t Ht) as A. pose proof (lik_nonneg t z Gt) as B. pose proof (proj1 (proj1 Gt)) as C.
    assert (E : tP t = 0 \/ pd t = 0 \/ lik t z = 0).
    { destruct (Qclt_le_dec 0 (tP t)) as [P1|P1]; [|left; qclra].
      destruct (Qclt_le_dec 0 (pd t)) as [P2|P2]; [|right; left; qclra].
      destruct (Qclt_le_dec 0 (lik t z)) as [P3|P3]; [|right; right; qclra].
      exfalso. apply N. exists t. split; [exact Ht|]. now split. }
    destruct E as [E|[E|E]]; rewrite E; unfold Qcdiv; ring.
Qed.

(** The mixture of a new track. *)
Lemma finite_all : forall (gs : list (option Qc * G)), (forall w g, In (w, g) gs -> w <> None) ->
  exists l, finite gs = Some l /\ gs = map (fun x => (Some (fst x), snd x)) l.
Proof using.
  induction gs as [|[w g] gs IH]; intros H; [exists []; auto|]. destruct w as [w|]; [|exfalso; now apply (H None g (or_introl eq_refl))].
  destruct IH as (l & E1 & E2); [intros w0 g0 Hin; exact (H w0 g0 (or_intror Hin))|].
  exists ((w, g) :: l). cbn [finite map fst snd]. rewrite E1, <- E2. auto.
Qed.
Lemma gs_in : forall z w g', In (w, g') (gs_of ts z) <-> exists t w0 g l, In t ts /\ 0 < pd t /\ In (w0, g) (tG t) /\
  correct z g = Some (g', l) /\ w = new_weight (st t) l w0.
Proof using.
  intros z w g'. unfold gs_of. rewrite in_flat_map. split.
  - intros (t & Ht & Hin). apply filter_In in Ht as [Ht Hp]. apply Qcltb_true in Hp. unfold corrected in Hin.
    apply in_flat_map in Hin as ([w0 g] & Hg0 & Hin). cbn [fst snd] in Hin. destruct (correct z g) as [[g1 l]|] eqn:E; [|destruct Hin].
    destruct Hin as [Hin|[]]. injection Hin as <- <-. exists t, w0, g, l. auto.
  - intros (t & w0 & g & l & Ht & Hp & Hg0 & E & ->). exists t. split; [apply filter_In; split; [exact Ht|now apply Qcltb_true]|].
    unfold corrected. apply in_flat_map. exists (w0, g). split; [exact Hg0|]. cbn [fst snd]. rewrite E. now left.
Qed.
Lemma new_weight_some : forall t l w, tP t < 1 -> new_weight (st t) l w = Some (l * w * pd t * tP t / (1 - tP t)).
Proof using.
  intros t l w H. unfold new_weight. cbn [s_p s_pd]. destruct (Qc_eq_dec (1 - tP t) 0) as [C|C]; [exfalso; qclra|reflexivity].
Qed.
Definition wnum (x : option Qc * G) : Qc := match fst x with Some w => w | None => 0 end.
Lemma corrected_sum : forall t z gs, tP t < 1 -> qsum (map wnum (corrected (st t) z gs)) =
  tP t / (1 - tP t) * (pd t * qsum (map (fun g => match correct z (snd g) with Some (_, l) => l * fst g | None => 0 end) gs)).
Proof using.
  intros t z gs Hp. induction gs as [|g gs IH]; cbn [corrected flat_map map].
  - rewrite !qsum_nil. ring.
  - fold (corrected (st t) z gs). rewrite map_app, qsum_app, qsum_cons, IH. destruct (correct z (snd g)) as [[g' l]|].
    + cbn [map]. rewrite qsum_cons, qsum_nil. unfold wnum at 1. cbn [fst]. rewrite new_weight_some by exact Hp. unfold Qcdiv. ring.
    + cbn [map]. rewrite qsum_nil. ring.
Qed.
Lemma gs_sum : forall z, (forall t, In t ts -> tP t < 1) -> qsum (map wnum (gs_of ts z)) = cb_mass probDet correct ts z.
Proof using Hs Hg.
  intros z Hp. unfold gs_of, cb_mass.
  rewrite <- (inview_sum (fun t => tP t / (1 - tP t) * (pd t * lik t z)) ts pd_in); [|intros t E; rewrite E; ring].
  assert (Hi : forall t, In t (inview ts) -> tP t < 1) by (intros t Ht; apply filter_In in Ht as [Ht _]; now apply Hp).
  induction (inview ts) as [|t l IH]; [reflexivity|]. cbn [flat_map map].
  rewrite map_app, qsum_app, qsum_cons, IH by (intros u Hu; apply Hi; now right).
  rewrite corrected_sum by (apply Hi; now left). reflexivity.
Qed.
Lemma mass_pos : forall z, (forall t, In t ts -> tP t < 1) -> (exists t, In t ts /\ explains probDet correct t z) ->
  0 < cb_mass probDet correct ts z.
Proof using Hs Hg.
  intros z Hp (t & Ht & P1 & P2 & P3). unfold cb_mass.
  apply (qsum_pos (fun t => tP t / (1 - tP t) * (pd t * lik t z)) ts t); [|exact Ht|].
  - intros u Hu. pose proof (good_in u Hu) as Gu. apply mul_nonneg; [apply div_nonneg; [apply Gu|]|].
    + pose proof (Hp u Hu). qclra.
    + apply mul_nonneg; [exact (pd_in u Hu)|exact (lik_nonneg u z Gu)].
  - apply mul_pos; [apply div_pos; [exact P1|]|now apply mul_pos]. pose proof (Hp t Ht). qclra.
Qed.
Lemma mixture_ok : forall z, (forall t, In t ts -> tP t < 1) -> (exists t, In t ts /\ explains probDet correct t z) ->
  exists gs, norm_weights (gs_of ts z) = Some gs /\ qsum (map fst gs) = 1 /\ (forall w g, In (w, g) gs -> 0 <= w) /\
  (forall w g', In (w, g') gs <-> exists t w0 g l, In t ts /\ 0 < pd t /\ In (w0, g) (tG t) /\ correct z g = Some (g', l) /\
     w * cb_mass probDet correct ts z = tP t / (1 - tP t) * (pd t * (l * w0))).
Proof using Hs Hg.
  intros z Hp He. pose proof (mass_pos z Hp He) as Mp. pose proof (gs_sum z Hp) as Sum.
  destruct (finite_all (gs_of ts z)) as (l & E1 & E2).
  { intros w g Hin. apply gs_in in Hin as (t & w0 & g0 & l & Ht & _ & _ & _ & ->). rewrite new_weight_some by now apply Hp. discriminate. }
  assert (Sl : qsum (map fst l) = cb_mass probDet correct ts z).
  { rewrite <- Sum, E2, map_map. apply qsum_ext. intros x _. reflexivity. }
  assert (Il : forall w g', In (w, g') l <-> exists t w0 g l0, In t ts /\ 0 < pd t /\ In (w0, g) (tG t) /\
            correct z g = Some (g', l0) /\ w = tP t / (1 - tP t) * (pd t * (l0 * w0))).
  { intros w g'. transitivity (In (Some w, g') (gs_of ts z)).
    - rewrite E2, in_map_iff. split.
      + intros H. exists (w, g'). auto.
      + intros ([w1 g1] & E & H). cbn [fst snd] in E. injection E as -> ->. exact H.
    - rewrite gs_in. split; intros (t & w0 & g & l0 & Ht & P & Hin & C & E); exists t, w0, g, l0; repeat (split; [assumption|]).
      + rewrite new_weight_some in E by now apply Hp. injection E as ->. unfold Qcdiv. ring.
      + rewrite new_weight_some by now apply Hp. f_equal. rewrite E. unfold Qcdiv. ring. }
  unfold norm_weights. rewrite E1, fold_plus0, Sl.
  assert (Nz : cb_mass probDet correct ts z <> 0) by (apply Qcpos_neq; exact Mp).
  destruct (Qc_eq_dec (cb_mass probDet correct ts z) 0) as [C|_]; [contradiction|].
  exists (map (fun g => (fst g / cb_mass probDet correct ts z, snd g)) l). split; [|split; [|split]].
  - destruct l; [|reflexivity]. exfalso. cbn in Sl. rewrite <- Sl in Mp. qclra.
  - rewrite map_map. cbn [fst].
    rewrite (qsum_ext _ (fun x : Qc * G => / cb_mass probDet correct ts z * fst x)) by (intros x _; unfold Qcdiv; ring).
    rewrite qsum_scale. rewrite Sl. now apply Qcmult_inv_l.
  - intros w g Hin. apply in_map_iff in Hin as ([w1 g1] & E & Hin). cbn [fst snd] in E. injection E as <- <-.
    apply div_nonneg; [|exact Mp]. apply Il in Hin as (t & w0 & g & l0 & Ht & P & Hin & C & ->).
    pose proof (good_in t Ht) as Gt. apply mul_nonneg; [apply div_nonneg; [apply Gt|pose proof (Hp t Ht); qclra]|].
    apply mul_nonneg; [qclra|]. apply mul_nonneg; [exact (proj1 (proj2 Hs) z g g1 l0 C)|]. exact (proj1 (proj2 Gt) w0 g Hin).
  - intros w g'. rewrite in_map_iff. split.
    + intros ([w1 g1] & E & Hin). cbn [fst snd] in E. injection E as <- <-. apply Il in Hin as (t & w0 & g & l0 & Ht & P & Hin & C & ->).
      exists t, w0, g, l0. repeat (split; [assumption|]). now apply Qcdiv_mul.
    + intros (t & w0 & g & l0 & Ht & P & Hin & C & E). exists (w * cb_mass probDet correct ts z, g'). cbn [fst snd]. split.
      * f_equal. now apply Qcdiv_mult_l.
      * apply Il. exists t, w0, g, l0. auto.
Qed.
End Good.
End Proofs.
