(** The theorems about the CB-MeMBer map update and the birth tracks. *)
From Coq Require Import ZArith List Bool Arith QArith Qcanon Lia.
From Verif Require Import Base ListUtil QcLra PermanentSpec LmbModel LmbSpec MemberModel MemberSpec MemberProofs MemberProofs2.
Import ListNotations.
Local Open Scope Qc_scope.

Lemma Forall2_old : forall {A B} (P : A -> B -> Prop) (f : A -> B) l, (forall x, In x l -> P x (f x)) -> Forall2 P l (map f l).
Proof.
  intros A B P f. induction l as [|x l IH]; intros H; cbn [map]; constructor; [apply H; now left|]. apply IH. intros y Hy. apply H. now right.
Qed.
Lemma seq_nth_error : forall n i k, nth_error (seq k n) i = if (i <? n)%nat then Some (k + i)%nat else None.
Proof.
  induction n as [|n IH]; intros i k; [now destruct i|]. destruct i as [|i]; cbn [seq nth_error]; [change (0 <? S n)%nat with true; cbn iota; f_equal; lia|]. rewrite IH.
  destruct (Nat.ltb_spec i n), (Nat.ltb_spec (S i) (S n)); try lia; [f_equal; lia|reflexivity].
Qed.
Lemma made_nth : forall (G : Type) probDet (correct : nat -> G -> option (G * Qc)) clutter ts nZ z n,
  nth_error (map (made probDet correct clutter ts) (seq 0 nZ)) z = Some n -> (z < nZ)%nat /\ n = made probDet correct clutter ts z.
Proof.
  intros G probDet correct clutter ts nZ z n H. rewrite nth_error_map, seq_nth_error in H. destruct (Nat.ltb_spec z nZ); [|discriminate].
  cbn [option_map Nat.add] in H. injection H as <-. now split.
Qed.
Lemma nth_made : forall (G : Type) probDet (correct : nat -> G -> option (G * Qc)) clutter ts nZ z, (z < nZ)%nat ->
  nth_error (map (made probDet correct clutter ts) (seq 0 nZ)) z = Some (made probDet correct clutter ts z).
Proof.
  intros G probDet correct clutter ts nZ z H. rewrite nth_error_map, seq_nth_error. destruct (Nat.ltb_spec z nZ); [reflexivity|lia].
Qed.
Lemma below_one : forall (G : Type) probDet (correct : nat -> G -> option (G * Qc)) clutter nZ ts,
  sensor_ok probDet correct clutter nZ -> List.Forall fair ts -> (forall t, In t ts -> tP t < 1) ->
  forall t, In t ts -> tP t * pd_of probDet t <> 1.
Proof.
  intros G probDet correct clutter nZ ts Hs Hg Hp t Ht E. pose proof (good_in ts Hg t Ht) as Gt.
  pose proof (pd_01 probDet correct clutter nZ Hs t Gt) as [A B]. destruct Gt as ((C & D) & _). pose proof (Hp t Ht).
  assert (tP t * pd_of probDet t <= tP t) by qcnra. rewrite E in *. qclra.
Qed.
Lemma explained_dec : forall (G : Type) probDet (correct : nat -> G -> option (G * Qc)) ts z,
  (exists t, In t ts /\ explains probDet correct t z) \/ ~ exists t, In t ts /\ explains probDet correct t z.
Proof.
  intros G probDet correct ts z. induction ts as [|t ts IH]; [right; intros (t & [] & _)|].
  destruct IH as [(u & Hu & E)|N]; [left; exists u; split; [now right|exact E]|].
  assert (D : explains probDet correct t z \/ ~ explains probDet correct t z).
  { unfold explains. destruct (Qclt_le_dec 0 (tP t)) as [A|A]; [|right; intros (H & _); now apply Qcle_not_lt in A].
    destruct (Qclt_le_dec 0 (pd_of probDet t)) as [B|B]; [|right; intros (_ & H & _); now apply Qcle_not_lt in B].
    destruct (Qclt_le_dec 0 (lik_of correct t z)) as [C|C]; [left; now split|right; intros (_ & _ & H); now apply Qcle_not_lt in C]. }
  destruct D as [D|D]; [left; exists t; split; [now left|exact D]|]. right. intros (u & [<-|Hu] & E); [contradiction|]. apply N. now exists u.
Qed.
Lemma unused_kept : forall (G : Type) (l : list (@new_track G)) k,
  (length (unused_from k l) + length (filter (fun t => if Qc_eq_dec (n_P t) 0 then false else true) l) = length l)%nat.
Proof.
  intros G. induction l as [|t l IH]; intros k; [reflexivity|]. cbn [unused_from filter]. specialize (IH (S k)).
  destruct (Qc_eq_dec (n_P t) 0); cbn [length]; lia.
Qed.

Theorem member_range : forall (G : Type) probDet (correct : nat -> G -> option (G * Qc)) clutter nZ ts,
  sensor_ok probDet correct clutter nZ -> List.Forall fair ts -> (forall t, In t ts -> tP t * pd_of probDet t <> 1) -> ts <> [] ->
  exists u, update_map probDet correct clutter nZ ts = Val u /\
  Forall2 (fun t t' => tG t' = tG t /\ 0 <= tP t' <= tP t /\
             tP t' * (1 - tP t * pd_of probDet t) = tP t * (1 - pd_of probDet t)) ts (u_old u) /\
  length (u_new u) = nZ /\
  (forall z n, nth_error (u_new u) z = Some n -> 0 <= n_P n <= 1 /\
     n_P n * cb_den probDet correct clutter ts z = cb_num probDet correct ts z).
Proof.
  intros G probDet correct clutter nZ ts Hs Hg H1 Ne. rewrite (update_val probDet correct clutter nZ ts Hs Hg H1 Ne).
  eexists. split; [reflexivity|]. cbn [u_old u_new]. split; [|split].
  - apply Forall2_old. intros t Ht. split; [reflexivity|]. split; [apply (old_range probDet correct clutter nZ ts Hs Hg H1 t Ht)|].
    cbn [tP old_track]. apply Qcdiv_mul. apply Qcpos_neq. exact (miss_pos probDet correct clutter nZ ts Hs Hg H1 t Ht).
  - now rewrite map_length, seq_length.
  - intros z n Hn. destruct (made_nth _ _ _ _ _ _ _ _ Hn) as [Hz ->]. split; [exact (made_range probDet correct clutter nZ ts Hs Hg H1 z Hz)|].
    cbn [n_P made]. apply Qcdiv_mul. apply Qcpos_neq. exact (den_pos probDet correct clutter nZ ts Hs Hg H1 z Hz).
Qed.

Theorem member_mixture : forall (G : Type) probDet (correct : nat -> G -> option (G * Qc)) clutter nZ ts,
  sensor_ok probDet correct clutter nZ -> List.Forall fair ts -> (forall t, In t ts -> tP t < 1) ->
  exists u, update_map probDet correct clutter nZ ts = Val u /\
  (forall z n, nth_error (u_new u) z = Some n -> n_P n <> 0 ->
     exists gs, n_G n = Some gs /\ qsum (map fst gs) = 1 /\ (forall w g, In (w, g) gs -> 0 <= w) /\
     0 < cb_mass probDet correct ts z /\
     (forall w g', In (w, g') gs <-> exists t w0 g l, In t ts /\ 0 < pd_of probDet t /\ In (w0, g) (tG t) /\ correct z g = Some (g', l) /\
        w * cb_mass probDet correct ts z = tP t / (1 - tP t) * (pd_of probDet t * (l * w0)))).
Proof.
  intros G probDet correct clutter nZ ts Hs Hg Hp. assert (H1 := below_one G probDet correct clutter nZ ts Hs Hg Hp).
  destruct ts as [|t0 ts0] eqn:Ets; [eexists; split; [reflexivity|]; intros [|z] n Hn; discriminate|]. rewrite <- Ets in *.
  rewrite (update_val probDet correct clutter nZ ts Hs Hg H1 ltac:(rewrite Ets; discriminate)). eexists. split; [reflexivity|]. cbn [u_new].
  intros z n Hn Hz0. destruct (made_nth _ _ _ _ _ _ _ _ Hn) as [Hz ->].
  assert (He : exists t, In t ts /\ explains probDet correct t z).
  { destruct (explained_dec G probDet correct ts z) as [E|E]; [exact E|]. exfalso. apply Hz0.
    apply (made_zero probDet correct clutter nZ ts Hs Hg H1 z Hz Hp). exact E. }
  destruct (mixture_ok probDet correct clutter nZ ts Hs Hg z Hp He) as (gs & E & A & B & C).
  exists gs. split; [exact E|]. split; [exact A|]. split; [exact B|]. split; [exact (mass_pos probDet correct clutter nZ ts Hs Hg z Hp He)|exact C].
Qed.

Theorem member_unused : forall (G : Type) probDet (correct : nat -> G -> option (G * Qc)) clutter nZ ts,
  sensor_ok probDet correct clutter nZ -> List.Forall fair ts -> (forall t, In t ts -> tP t < 1) ->
  exists u, update_map probDet correct clutter nZ ts = Val u /\ NoDup (u_unused u) /\
  (forall z, In z (u_unused u) <-> (z < nZ)%nat /\ ~ exists t, In t ts /\ explains probDet correct t z) /\
  (ts <> [] -> (length (u_unused u) + length (new_kept u) = nZ)%nat).
Proof.
  intros G probDet correct clutter nZ ts Hs Hg Hp. assert (H1 := below_one G probDet correct clutter nZ ts Hs Hg Hp).
  destruct ts as [|t0 ts0] eqn:Ets.
  { eexists. split; [reflexivity|]. cbn [u_unused]. split; [apply seq_NoDup|]. split; [|intros C; contradiction]. intros z. rewrite in_seq. split.
    - intros H. split; [lia|]. intros (t & [] & _).
    - lia. }
  rewrite <- Ets in *.
  rewrite (update_val probDet correct clutter nZ ts Hs Hg H1 ltac:(rewrite Ets; discriminate)). eexists. split; [reflexivity|]. cbn [u_unused].
  split; [apply unused_nodup|]. split.
  - intros z. rewrite unused_in. split.
    + intros (i & t & -> & Hn & Hz0). cbn [Nat.add]. destruct (made_nth _ _ _ _ _ _ _ _ Hn) as [Hz ->]. split; [exact Hz|].
      now apply (made_zero probDet correct clutter nZ ts Hs Hg H1 i Hz Hp).
    + intros [Hz Hn]. exists z, (made probDet correct clutter ts z). split; [reflexivity|]. split; [apply nth_made; exact Hz|].
      now apply (made_zero probDet correct clutter nZ ts Hs Hg H1 z Hz Hp).
  - intros _. unfold new_kept. cbn [u_new]. rewrite unused_kept, map_length, seq_length. reflexivity.
Qed.

Theorem member_count : forall (G : Type) probDet (correct : nat -> G -> option (G * Qc)) clutter ts,
  sensor_ok probDet correct clutter 1 -> List.Forall fair ts -> (forall t, In t ts -> tP t * pd_of probDet t <> 1) ->
  exists u, update_map probDet correct clutter 1 ts = Val u /\ expected_count probDet correct clutter 1 ts (map_count u).
Proof.
  intros G probDet correct clutter ts Hs Hg H1. destruct ts as [|t0 ts0] eqn:Ets.
  { eexists. split; [reflexivity|]. unfold map_count. cbn [u_old new_kept u_new filter map]. exists [[]].
    split; [repeat constructor; intros []|]. split.
    - intros e. split; [intros [<-|[]]|].
      + split; [reflexivity|]. split; [intros z []|]. intros [|i] j z; discriminate.
      + intros (E & _). left. destruct e; [reflexivity|discriminate].
    - cbn [map head_count]. rewrite joint1. cbn [fates seen existsb]. rewrite !RfsProofs.qsum_cons, !RfsProofs.qsum_nil.
      assert (P : 0 < clutter 0%nat) by (apply Hs; lia). assert (E : 1 * clutter 0%nat + 0 = clutter 0%nat) by ring. rewrite E.
      split; [now apply Qcpos_neq|]. unfold Qcdiv. ring. }
  rewrite <- Ets in *.
  rewrite (update_val probDet correct clutter 1 ts Hs Hg H1 ltac:(rewrite Ets; discriminate)). eexists. split; [reflexivity|].
  unfold map_count, new_kept. cbn [u_old u_new]. rewrite kept_sum. cbn [seq map]. rewrite RfsProofs.qsum_cons, RfsProofs.qsum_nil.
  assert (E : forall a b : Qc, a + (b + 0) = a + b) by (intros; ring). rewrite E.
  exact (count_one probDet correct clutter ts Hs Hg H1).
Qed.

Theorem member_history : forall (M : Type) kind n cs, List.Forall (numbers_ok M) cs -> no_empty_update M false cs ->
  exists s, run M kind (start M n) cs = Val s.
Proof.
  intros M kind n cs Hn He. apply (run_fits M kind cs (start M n) false Hn He).
  - apply idle_fits. apply start_idle.
  - intros _. apply start_idle.
Qed.

Theorem member_births : forall (M : Type) kind s (zs : list M) f, zs <> [] -> numbers_ok M (Update M zs f None) ->
  exists s1 s2, run M kind s [Update M zs f None; Predict M] = Val s1 /\ step M kind s1 (Predict M) = Val s2 /\
  Forall2 (fun p q => p_id M q = p_id M p /\ exists bs, p_born M q = p_born M p ++ bs /\ births_of M kind zs (p_id M p) (f (p_id M p)) bs)
    (f_slots M s) (f_slots M s1) /\
  map (p_born M) (f_slots M s2) = map (p_born M) (f_slots M s1).
Proof.
  intros M kind s zs f Hz Hn. destruct zs as [|z zs]; [contradiction|]. cbn [numbers_ok] in Hn.
  destruct (births_all M kind (z :: zs) f (f_slots M s) Hn) as (l & E & I & F).
  destruct (idle_births M kind (z :: zs) l I) as (l2 & E2 & A & _ & _).
  exists (Fstate M (z :: zs) l), (Fstate M (z :: zs) l2). cbn [run step obind f_z f_slots]. rewrite E. cbn [obind f_z f_slots]. rewrite E2.
  cbn [obind]. split; [reflexivity|]. split; [reflexivity|]. split; [exact F|exact A].
Qed.

Theorem member_miss : forall (G : Type) probDet (correct : nat -> G -> option (G * Qc)) clutter nZ ts,
  sensor_ok probDet correct clutter nZ -> List.Forall fair ts -> (forall t, In t ts -> tP t * pd_of probDet t <> 1) -> (0 < nZ)%nat ->
  exists u, update probDet correct clutter nZ ts = Val u /\
  Forall2 (fun t t' => (0 < tP t -> tP t < 1 -> 0 < pd_of probDet t -> tP t' < tP t) /\ (pd_of probDet t = 0 -> tP t' = tP t)) ts (u_old u).
Proof.
  intros G probDet correct clutter nZ ts Hs Hg H1 Hz. unfold update. destruct (Nat.eqb_spec nZ 0) as [C|_]; [lia|].
  destruct ts as [|t0 ts0] eqn:Ets; [eexists; split; [reflexivity|constructor]|]. rewrite <- Ets in *.
  rewrite (update_val probDet correct clutter nZ ts Hs Hg H1 ltac:(rewrite Ets; discriminate)). eexists. split; [reflexivity|]. cbn [u_old].
  apply Forall2_old. intros t Ht. split; [apply (old_range probDet correct clutter nZ ts Hs Hg H1 t Ht)|].
  intros E. cbn [tP old_track]. rewrite E. field. discriminate.
Qed.

(** Births after a resampling. *)
Lemma resampled_births : forall (M : Type) kind (zs : list M) f g all l i,
  (forall id k pe, In (k, pe) (f id) -> (k < length zs)%nat) ->
  (forall j, (i <= j < i + length l)%nat -> (g j < length all)%nat) ->
  exists l', birth_slots M kind zs (mapi (resample_slot M g (map (write_slot M f) all)) i (map (write_slot M f) l)) = Val l' /\
  length l' = length l /\
  (forall j p, nth_error l j = Some p -> exists q r bs, nth_error all (g (i + j)%nat) = Some q /\ nth_error l' j = Some r /\
     p_id M r = p_id M q /\ p_born M r = p_born M q ++ bs /\ births_of M kind zs (p_id M q) (f (p_id M p)) bs).
Proof.
  intros M kind zs f g all. induction l as [|s l IH]; intros i H Hg.
  - exists []. split; [reflexivity|]. split; [reflexivity|]. intros [|j] p E; discriminate.
  - cbn [map mapi birth_slots].
    destruct (nth_error all (g i)) as [q|] eqn:Eq; [|apply nth_error_None in Eq; specialize (Hg i); cbn [length] in Hg; lia].
    unfold resample_slot at 1. rewrite nth_error_map, Eq. cbn [option_map]. unfold write_slot at 1 2 3 4. cbn [p_id p_unused p_pe p_born].
    destruct (slot_ok M kind zs (p_id M q) (f (p_id M s)) (p_born M q) (H (p_id M s))) as (bs & E & B).
    destruct (IH (S i) H) as (l' & E' & L & F); [intros j Hj; apply Hg; cbn [length]; lia|].
    rewrite E. cbn [obind]. rewrite E'. cbn [obind]. eexists. split; [reflexivity|]. split; [cbn [length]; congruence|].
    intros [|j] p Ep; cbn [nth_error] in Ep |- *.
    + injection Ep as <-. exists q. eexists. exists bs. rewrite Nat.add_0_r. split; [exact Eq|]. split; [reflexivity|].
      cbn [p_id p_born]. split; [reflexivity|]. split; [reflexivity|exact B].
    + destruct (F j p Ep) as (q' & r & bs' & A). exists q', r, bs'. replace (i + S j)%nat with (S i + j)%nat by lia. exact A.
Qed.
Theorem member_resampled : forall (M : Type) kind s (zs : list M) f g, zs <> [] -> numbers_ok M (Update M zs f (Some g)) ->
  (forall i, (i < length (f_slots M s))%nat -> (g i < length (f_slots M s))%nat) ->
  exists s1, run M kind s [Update M zs f (Some g); Predict M] = Val s1 /\ length (f_slots M s1) = length (f_slots M s) /\
  (forall i p, nth_error (f_slots M s) i = Some p ->
     exists q r bs, nth_error (f_slots M s) (g i) = Some q /\ nth_error (f_slots M s1) i = Some r /\
     p_id M r = p_id M q /\ p_born M r = p_born M q ++ bs /\ births_of M kind zs (p_id M q) (f (p_id M p)) bs).
Proof.
  intros M kind s zs f g Hz Hn Hg. destruct zs as [|z zs]; [congruence|].
  destruct (resampled_births M kind (z :: zs) f g (f_slots M s) (f_slots M s) 0 Hn) as (l' & E & L & F); [intros j Hj; apply Hg; lia|].
  cbn [run step obind f_z f_slots]. rewrite E. cbn [obind]. eexists. split; [reflexivity|]. cbn [f_slots]. split; [exact L|exact F].
Qed.
