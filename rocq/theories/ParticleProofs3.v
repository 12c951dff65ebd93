From Coq Require Import ZArith QArith Qcanon Qround Lqa List Bool Arith Lia Permutation Sorted.
From Verif Require Import Base ListUtil QcLra ParticleModel ParticleSpec ParticleProofs ParticleProofs2.
Import ListNotations.
Local Open Scope Qc_scope.

Lemma sample_count_kept : forall n N, sample_count n N = kept n N.
Proof.
  intros. unfold sample_count, kept. destruct (Nat.eqb_spec n 0); simpl; auto.
  destruct (Nat.ltb_spec N n); lia.
Qed.
Lemma kept_le : forall n N, (kept n N <= N)%nat.
Proof. intros. unfold kept. destruct (Nat.eqb n 0); lia. Qed.
Lemma kept_pos : forall n N, (0 < N)%nat -> (0 < kept n N)%nat.
Proof. intros. unfold kept. destruct (Nat.eqb_spec n 0); lia. Qed.

Lemma norm_nth : forall P D (l : list (particle P D)) i p', nth_error (normalizeWeights l) i = Some p' ->
  exists p w, nth_error l i = Some p /\ p' = setWeight p w.
Proof.
  intros P D l i p' H. unfold normalizeWeights in H. rewrite nth_error_map in H.
  destruct (nth_error l i) as [p|]; [|discriminate]. injection H as <-. eauto.
Qed.
Lemma norm_length : forall P D (l : list (particle P D)), length (normalizeWeights l) = length l.
Proof. intros. unfold normalizeWeights. apply map_length. Qed.
Lemma norm_data : forall P D (l : list (particle P D)), all_data l -> all_data (normalizeWeights l).
Proof.
  intros P D l H p Hp. apply In_nth_error in Hp as (i & Hi). apply norm_nth in Hi as (q & w & Hq & ->). simpl.
  apply H. now apply nth_error_In in Hq.
Qed.

Lemma nth_error_firstn_lt : forall A (l : list A) n j, (j < n)%nat -> nth_error (firstn n l) j = nth_error l j.
Proof. intros A. induction l as [|x l IH]; intros [|n] [|j] H; simpl; auto; try lia. apply IH. lia. Qed.

(** From a selection to the new particle set. *)
Lemma copies_ok : forall P D (l : list (particle P D)) sel, all_data l -> (length sel <= length l)%nat ->
  (forall i, In i sel -> (i < length l)%nat) -> StronglySorted le sel ->
  exists l' src,
  (let* c := copy_loop (length sel) (flags_of (length (normalizeWeights l)) sel) sel None 0 (normalizeWeights l) in
   Val (map (fun p => setWeight p (Some 1)) (firstn (length sel) c))) = Val l' /\
  length l' = length sel /\ Permutation src sel /\ built_from l l' src /\
  (forall i, In i sel -> (i < length sel)%nat -> nth_error src i = Some i).
Proof.
  intros P D l sel Hd Hle Hb Hso.
  destruct (copy_all_ok (normalizeWeights l) sel) as (cur & src & -> & Hlc & Hls & Hp & Hself & Hcur).
  - now apply norm_data.
  - now rewrite norm_length.
  - intros i Hi. rewrite norm_length. auto.
  - auto.
  - rewrite norm_length in Hlc. cbn [obind]. eexists _, src. split; [reflexivity|].
    assert (Hlen : length (map (fun p : particle P D => setWeight p (Some 1)) (firstn (length sel) cur)) = length sel).
    { rewrite map_length, firstn_length. lia. }
    split; [auto|]. split; [auto|]. split; [split; [congruence|]|].
    + intros j q Hq. assert (Hj : (j < length sel)%nat) by (rewrite <- Hlen; apply nth_error_Some; congruence).
      rewrite nth_error_map in Hq. rewrite nth_error_firstn_lt in Hq by auto.
      destruct (Hcur j Hj) as (i & Hi & Hc). rewrite Hc in Hq.
      destruct (nth_error (normalizeWeights l) i) as [p'|] eqn:En; [|discriminate].
      apply norm_nth in En as (p & w & En & ->). injection Hq as <-.
      exists i, p. split; [auto|]. split; [auto|]. repeat split; reflexivity.
    + intros i Hi Hl. now apply Hself.
Qed.

Lemma selection_length : forall w n u sel, selection w n u sel -> length sel = n.
Proof. intros w n u sel H. rewrite <- (seq_length n 0). symmetry. induction H; simpl; auto. Qed.
Lemma selection_bound : forall w n u sel i, selection w n u sel -> In i sel -> (i < length w)%nat.
Proof.
  intros w n u sel i H. unfold selection in H. revert H. generalize (seq 0 n). intros l H.
  induction H as [|k s l sel (Hb & _) Hf IH]; intros []; subst; auto.
Qed.

Theorem do_resample_ok : forall P D (l : list (particle P D)) n u w, weights_of l w -> all_data l -> 0 <= u < 1 ->
  exists l' sel src, do_resample (normalizeWeights l) n u = Val l' /\
  length l' = kept n (length l) /\ selection w (kept n (length l)) u sel /\ Permutation src sel /\
  built_from l l' src /\
  (forall i, In i sel -> (i < kept n (length l))%nat -> nth_error src i = Some i) /\
  (forall i, (i < length l)%nat ->
     expected w (kept n (length l)) i - 1 <= QcN (count_occ Nat.eq_dec src i) <= expected w (kept n (length l)) i + 1 /\
     (0 < u -> (Qfloor (this (expected w (kept n (length l)) i)) <= Z.of_nat (count_occ Nat.eq_dec src i)
               <= Qceiling (this (expected w (kept n (length l)) i)))%Z)).
Proof.
  intros P D l n u w Hw Hd Hu. destruct Hw as (Hm & Hn & Hs).
  assert (Hlw : length w = length l). { apply (f_equal (@length _)) in Hm. now rewrite !map_length in Hm. }
  assert (Hpos : (0 < length l)%nat). { rewrite <- Hlw. destruct w; [simpl in Hs; now vm_compute in Hs|simpl; lia]. }
  destruct (draw_ok w (kept n (length l)) u Hn Hs Hu (kept_pos n _ Hpos)) as (sel & Hdr & Hsel & Hso).
  assert (Hlen := selection_length _ _ _ _ Hsel).
  destruct (copies_ok P D l sel Hd) as (l' & src & Hc & Hll & Hp & Hb & Hself); auto.
  { rewrite Hlen. apply kept_le. }
  { intros i Hi. rewrite <- Hlw. eapply selection_bound; eauto. }
  exists l', sel, src. split.
  { unfold do_resample. rewrite norm_length, sample_count_kept.
    rewrite (norm_weights P D l w (conj Hm (conj Hn Hs))), Hdr. cbn [obind].
    rewrite norm_length, Hlen in Hc. exact Hc. }
  split; [lia|]. split; [auto|]. split; [auto|]. split; [auto|]. split.
  { intros i Hi Hk. apply Hself; auto. lia. }
  intros i Hi. assert (Ec : count_occ Nat.eq_dec src i = count_occ Nat.eq_dec sel i).
  { now apply Permutation_count_occ. }
  rewrite Ec. assert (Hkp := kept_pos n _ Hpos).
  destruct (count_bounds w _ u sel i Hn Hs Hkp Hu Hsel ltac:(lia)) as (Hb1 & Hb2).
  split; [exact Hb1|]. intros Hup. apply strict_floor_ceil. exact (Hb2 Hup).
Qed.

Theorem resample_ok : forall P D (s : pf P D) n u w, weights_of (pset s) w -> all_data (pset s) -> 0 <= u < 1 ->
  exists s' sel src, resample s n true u = Val (s', true) /\
  length (pset s') = kept n (length (pset s)) /\ selection w (kept n (length (pset s))) u sel /\ Permutation src sel /\
  built_from (pset s) (pset s') src /\
  (forall i, In i sel -> (i < kept n (length (pset s)))%nat -> nth_error src i = Some i) /\
  (forall i, (i < length (pset s))%nat ->
     expected w (kept n (length (pset s))) i - 1 <= QcN (count_occ Nat.eq_dec src i) <= expected w (kept n (length (pset s))) i + 1 /\
     (0 < u -> (Qfloor (this (expected w (kept n (length (pset s))) i)) <= Z.of_nat (count_occ Nat.eq_dec src i)
               <= Qceiling (this (expected w (kept n (length (pset s))) i)))%Z)).
Proof.
  intros P D s n u w Hw Hd Hu.
  destruct (do_resample_ok P D (pset s) n u w Hw Hd Hu) as (l' & sel & src & H & R).
  exists (PF l' (effT s) (effPct s)), sel, src. split; [|exact R].
  unfold resample. cbn [obind]. rewrite H. reflexivity.
Qed.

(** Selected slots below the new count stay where they are. *)
Lemma c25_counts : forall P D (s : pf P D) n u w, weights_of (pset s) w -> all_data (pset s) -> 0 < u < 1 ->
  exists s' src, resample s n true u = Val (s', true) /\
  length (pset s') = kept n (length (pset s)) /\ built_from (pset s) (pset s') src /\
  (forall i, (i < length (pset s))%nat ->
     (Qfloor (this (expected w (kept n (length (pset s))) i)) <= Z.of_nat (count_occ Nat.eq_dec src i)
     <= Qceiling (this (expected w (kept n (length (pset s))) i)))%Z).
Proof.
  intros P D s n u w Hw Hd [Hu Hu1].
  destruct (resample_ok P D s n u w Hw Hd (conj (Qclt_le_weak _ _ Hu) Hu1)) as (s' & sel & src & H1 & H2 & _ & _ & H3 & _ & H4).
  exists s', src. split; [auto|]. split; [auto|]. split; [auto|]. intros i Hi. now apply H4.
Qed.

Lemma c25_within : forall P D (s : pf P D) n u w, weights_of (pset s) w -> all_data (pset s) -> 0 <= u < 1 ->
  exists s' src, resample s n true u = Val (s', true) /\
  length (pset s') = kept n (length (pset s)) /\ built_from (pset s) (pset s') src /\
  (forall i, (i < length (pset s))%nat ->
     expected w (kept n (length (pset s))) i - 1 <= QcN (count_occ Nat.eq_dec src i) <= expected w (kept n (length (pset s))) i + 1).
Proof.
  intros P D s n u w Hw Hd Hu.
  destruct (resample_ok P D s n u w Hw Hd Hu) as (s' & sel & src & H1 & H2 & _ & _ & H3 & _ & H4).
  exists s', src. split; [auto|]. split; [auto|]. split; [auto|]. intros i Hi. now apply H4.
Qed.

Lemma c25_zero : forall P D (s : pf P D) n u w, weights_of (pset s) w -> all_data (pset s) -> 0 < u < 1 ->
  exists s' src, resample s n true u = Val (s', true) /\ built_from (pset s) (pset s') src /\
  (forall i, nth_error w i = Some 0 -> ~ In i src).
Proof.
  intros P D s n u w Hw Hd Hu.
  destruct (c25_counts P D s n u w Hw Hd Hu) as (s' & src & H1 & H2 & H3 & H4).
  exists s', src. split; [auto|]. split; [auto|]. intros i Hi Hin.
  destruct Hw as (Hm & _ & _).
  assert (Hl : (i < length (pset s))%nat).
  { apply (f_equal (@length _)) in Hm. rewrite !map_length in Hm. rewrite Hm. apply nth_error_Some. congruence. }
  specialize (H4 i Hl). unfold expected in H4. rewrite (nth_error_nth w i 0 Hi) in H4.
  replace (QcN (kept n (length (pset s))) * 0 / qsum w) with 0 in H4 by (unfold Qcdiv; ring).
  change (Qceiling (this 0)) with 0%Z in H4. apply (count_occ_In Nat.eq_dec) in Hin. lia.
Qed.

Lemma c26_slots : forall P D (s : pf P D) n u w, weights_of (pset s) w -> all_data (pset s) -> 0 <= u < 1 ->
  exists s' sel src, resample s n true u = Val (s', true) /\
  length (pset s') = kept n (length (pset s)) /\ selection w (kept n (length (pset s))) u sel /\ Permutation src sel /\
  built_from (pset s) (pset s') src /\
  (forall i, In i sel -> (i < kept n (length (pset s)))%nat -> nth_error src i = Some i).
Proof.
  intros P D s n u w Hw Hd Hu.
  destruct (resample_ok P D s n u w Hw Hd Hu) as (s' & sel & src & H1 & H2 & H3 & H4 & H5 & H6 & _).
  exists s', sel, src. auto 10.
Qed.

(** All weights zero: everything descends from particle 0. *)
Lemma zero_nsum : forall m a, fold_left nadd (repeat (Some 0) m) (Some a) = Some a.
Proof. induction m as [|m IH]; intros a; simpl; auto. rewrite IH. f_equal. ring. Qed.

Lemma sample_nan : forall k sp iv rest, sample_loop k sp iv 0 None rest = Val (repeat 0%nat k).
Proof.
  induction k as [|k IH]; intros sp iv rest; [reflexivity|]. cbn [sample_loop].
  assert (E : advance sp 0 None rest = Val (0%nat, None, rest)).
  { destruct rest; simpl; destruct sp; reflexivity. }
  rewrite E. cbn [obind]. rewrite IH. reflexivity.
Qed.

Lemma c25_all_zero : forall P D (s : pf P D) n u, pset s <> [] -> all_data (pset s) ->
  (forall p, In p (pset s) -> pw p = Some 0) ->
  exists s', resample s n true u = Val (s', true) /\
  built_from (pset s) (pset s') (repeat 0%nat (kept n (length (pset s)))).
Proof.
  intros P D s n u Hne Hd Hz. set (l := pset s) in *.
  assert (Hpos : (0 < length l)%nat) by (destruct l; [congruence|simpl; lia]).
  assert (Hm : map pw l = repeat (Some 0) (length l)).
  { clear -Hz. induction l as [|p l IH]; [reflexivity|]. simpl. rewrite (Hz p) by now left. f_equal. apply IH. intros q Hq. apply Hz. now right. }
  set (sel := repeat 0%nat (kept n (length l))).
  assert (Hls : length sel = kept n (length l)) by apply repeat_length.
  destruct (copies_ok P D l sel Hd) as (l' & src & Hc & Hll & Hp & Hb & Hself).
  { rewrite Hls. apply kept_le. }
  { intros i Hi. apply repeat_spec in Hi. lia. }
  { unfold sel. induction (kept n (length l)) as [|m IH]; simpl; constructor; auto. apply Forall_forall. intros x Hx. apply repeat_spec in Hx. lia. }
  assert (Hsrc : src = sel).
  { unfold sel in *. assert (length src = kept n (length l)) by (rewrite (Permutation_length Hp); auto).
    rewrite <- H. apply Forall_eq_repeat. apply Forall_forall. intros x Hx. symmetry.
    apply (Permutation_in _ Hp) in Hx. now apply repeat_spec in Hx. }
  subst src. exists (PF l' (effT s) (effPct s)). split; [|exact Hb].
  unfold resample. cbn [obind]. fold l. unfold do_resample. rewrite norm_length, sample_count_kept.
  assert (Hmn : map pw (normalizeWeights l) = repeat None (length l)).
  { unfold normalizeWeights. rewrite Hm. unfold nsum. rewrite zero_nsum, map_map. simpl.
    clear. induction l; simpl; auto. f_equal; auto. destruct (pw a); simpl; auto. }
  rewrite Hmn. assert (Hdr : draw (repeat None (length l)) (kept n (length l)) u = Val sel).
  { destruct (length l) as [|m]; [lia|]. cbn [repeat draw]. apply sample_nan. }
  rewrite Hdr. cbn [obind]. rewrite norm_length, Hls in Hc. unfold sel in Hc |- *. rewrite Hc. reflexivity.
Qed.

(** The check of the effective number of particles. *)
Definition sqsum (w : list Qc) : Qc := qsum (map (fun x => x * x) w).

Lemma sqsum_pos : forall w, (forall x, In x w -> 0 <= x) -> 0 < qsum w -> 0 < sqsum w.
Proof.
  intros w Hw Hs. unfold sqsum.
  assert (Hall : forall w : list Qc, 0 <= qsum (map (fun x => x * x) w)).
  { intros v. apply qsum_nonneg. intros x Hx. apply in_map_iff in Hx as (y & <- & _). qcnra. }
  induction w as [|x w IH]; [now vm_compute in Hs|]. simpl in *.
  destruct (Qclt_le_dec 0 (qsum w)) as [H|H].
  - assert (0 < qsum (map (fun x => x * x) w)) by (apply IH; auto). qcnra.
  - assert (0 < x) by qclra. specialize (Hall w). qcnra.
Qed.

Lemma check_ok : forall P D (s : pf P D) n u w t pc, weights_of (pset s) w ->
  effT s = Some (Some t) -> effPct s = Some (Some pc) ->
  let neff := qsum w * qsum w / sqsum w in
  (t < neff /\ pc < neff / QcN (length w) ->
     resample s n false u = Val (PF (normalizeWeights (pset s)) (effT s) (effPct s), false)) /\
  (~ (t < neff /\ pc < neff / QcN (length w)) -> resample s n false u = resample s n true u).
Proof.
  intros P D s n u w t pc Hw Ht Hp neff.
  assert (Hlw : length w = length (pset s)).
  { destruct Hw as (Hm & _). apply (f_equal (@length _)) in Hm. now rewrite !map_length in Hm. }
  assert (Hlen : (0 < length w)%nat).
  { destruct Hw as (_ & _ & Hs). destruct w; [now vm_compute in Hs|simpl; lia]. }
  assert (Hnp : 0 < QcN (length w)). { rewrite <- QcN_0. now apply QcN_lt. }
  assert (Hsq : nsum (map (fun p => nmul (pw p) (pw p)) (normalizeWeights (pset s))) = Some (sqsum w / (qsum w * qsum w))).
  { rewrite <- (map_map pw (fun a => nmul a a)). rewrite (norm_weights P D (pset s) w Hw).
    rewrite !map_map. simpl. rewrite <- (map_map (fun x => x / qsum w * (x / qsum w)) (@Some Qc)), nsum_some. f_equal.
    unfold sqsum. assert (G : forall c, c <> 0 -> forall v, qsum (map (fun x => x / c * (x / c)) v) = qsum (map (fun x => x * x) v) / (c * c)).
    { intros c Hc. induction v as [|x v IH]; simpl; [unfold Qcdiv; ring|]. rewrite IH. field. auto. }
    apply G. destruct Hw as (_ & _ & Hs). now apply Qcpos_neq. }
  assert (Hpos : 0 < sqsum w) by (destruct Hw as (_ & Hn & Hs); now apply sqsum_pos).
  assert (Hspos : 0 < qsum w) by now destruct Hw as (_ & _ & Hs).
  assert (Hne : ndiv (Some 1) (Some (sqsum w / (qsum w * qsum w))) = Some neff).
  { simpl. destruct (Qc_eq_dec (sqsum w / (qsum w * qsum w)) 0) as [e|_].
    - exfalso. apply (f_equal (fun x => x * (qsum w * qsum w))) in e.
      rewrite Qcdiv_mul in e by (intros Hc; apply Qcmult_integral in Hc as [Hc|Hc]; now apply (Qcpos_neq _ Hspos)).
      rewrite Qcmult_0_l in e. now apply (Qcpos_neq _ Hpos).
    - f_equal. unfold neff. field. split; now apply Qcpos_neq. }
  assert (En : enough s (normalizeWeights (pset s)) = Val (Qcltb t neff && Qcltb pc (neff / QcN (length w)))).
  { unfold enough. rewrite Hsq, Hne, Ht, Hp. cbn [of_option obind ngt]. rewrite norm_length, <- Hlw.
    destruct (Qcltb t neff); [|reflexivity]. cbn [ndiv andb ngt].
    destruct (Qc_eq_dec (QcN (length w)) 0) as [e|_]; [exfalso; now apply (Qcpos_neq _ Hnp)|]. reflexivity. }
  unfold resample. rewrite En. cbn [obind]. split; intros H.
  - destruct H as [H1 H2]. apply Qcltb_true in H1, H2. rewrite H1, H2. reflexivity.
  - destruct (Qcltb_spec t neff) as [H1|H1], (Qcltb_spec pc (neff / QcN (length w))) as [H2|H2]; try reflexivity.
    exfalso. auto.
Qed.

Lemma map_rep : forall A B (f : A -> B) a m, map f (repeat a m) = repeat (f a) m.
Proof. intros. induction m; simpl; congruence. Qed.

Lemma repeat_sums : forall m c, qsum (repeat c m) = QcN m * c.
Proof. induction m as [|m IH]; intros c; simpl; [rewrite QcN_0; ring|]. rewrite IH, QcN_S. ring. Qed.

(** A filter built with ParticleFilter(n) and equal weights reads an uninitialised threshold. *)
Lemma default_uninit : forall P D n (x0 : P) (d : D) k u, (0 < n)%nat ->
  let s := pf_new (Data := D) n x0 in
  resample (PF (map (fun p => setData p (Some d)) (pset s)) (effT s) (effPct s)) k false u = UB Uninit.
Proof.
  intros P D n x0 d k u Hn s.
  set (l := map (fun p => setData p (Some d)) (pset s)).
  assert (Hl : length l = n). { unfold l, s, pf_new, addParticles, pf_empty. simpl. now rewrite !map_length, seq_length. }
  assert (Hnp : 0 < QcN n). { rewrite <- QcN_0. now apply QcN_lt. }
  assert (Hw : map pw l = map (@Some Qc) (repeat 1 n)).
  { unfold l, s, pf_new, addParticles, pf_empty. simpl. rewrite !map_map. simpl.
    destruct (Qclt_le_dec 1 0) as [Hc|_]; [now vm_compute in Hc|]. clear.
    generalize 0%nat. induction n as [|n IH]; intros a; simpl; auto. now rewrite IH. }
  assert (Hs : qsum (repeat 1 n) = QcN n). { rewrite repeat_sums. ring. }
  assert (Hwo : weights_of l (repeat 1 n)).
  { split; [auto|]. split; [|now rewrite Hs]. intros x Hx. apply repeat_spec in Hx. subst x. now vm_compute. }
  unfold resample. cbn [obind pset].
  assert (En : enough (PF l (effT s) (effPct s)) (normalizeWeights l) = UB Uninit); [|rewrite En; reflexivity].
  unfold enough. rewrite <- (map_map pw (fun a => nmul a a)), (norm_weights P D l _ Hwo), !map_map. simpl.
  rewrite <- (map_map (fun x => x / qsum (repeat 1 n) * (x / qsum (repeat 1 n))) (@Some Qc)), nsum_some, Hs.
  assert (E : qsum (map (fun x => x / QcN n * (x / QcN n)) (repeat 1 n)) = 1 / QcN n).
  { rewrite map_rep, repeat_sums. field. now apply Qcpos_neq. }
  rewrite E. destruct (Qc_eq_dec (1 / QcN n) 0) as [e|_].
  - exfalso. apply (f_equal (fun x => x * QcN n)) in e. rewrite Qcdiv_mul in e by now apply Qcpos_neq.
    rewrite Qcmult_0_l in e. discriminate.
  - cbn [ngt]. assert (Hlt : Qcltb (QcN n / QcN 4) (1 / (1 / QcN n)) = true); [|rewrite Hlt; reflexivity].
    apply Qcltb_true. assert (Hq : 1 / (1 / QcN n) = QcN n) by (field; split; [now apply Qcpos_neq|discriminate]). rewrite Hq.
    apply Qcdiv_lt; [now vm_compute|]. change (QcN 4) with (1 + 1 + 1 + 1). qclra.
Qed.

(** ** Identifiers *)

Definition ids_are_slots {P D} (l : list (particle P D)) : Prop := map pid l = seq 0 (length l).

Fixpoint copies {P D} (s : pf P D) (calls : list (nat * nat * option Qc)) : outcome (pf P D) :=
  match calls with
  | [] => Val s
  | (idx, n, w) :: r => let* s' := copyParticle s idx n w in copies s' r
  end.

Lemma map_upd : forall A B (f : A -> B) (l : list A) i x, map f (upd l i x) = upd (map f l) i (f x).
Proof. induction l as [|a l IH]; intros [|i] x; simpl; auto. now rewrite IH. Qed.
Lemma upd_same : forall A (l : list A) i x, nth_error l i = Some x -> upd l i x = l.
Proof. induction l as [|a l IH]; intros [|i] x H; try discriminate; simpl in *; [now injection H as ->|now rewrite IH]. Qed.

Lemma copyParticle_ids : forall P D (s s' : pf P D) idx n w, copyParticle s idx n w = Val s' ->
  ids_are_slots (pset s) -> ids_are_slots (pset s').
Proof.
  intros P D s s' idx n w H Hi. unfold copyParticle in H.
  destruct (nth_error (pset s) idx) as [p|] eqn:E; [|destruct (Nat.ltb idx (length (pset s) + n)); discriminate].
  cbn [of_option obind] in H.
  set (p' := match w with None => p | Some x => setWeight p (Some x) end) in *.
  assert (Hp : pid p' = pid p) by (unfold p'; destruct w; reflexivity).
  assert (Hm : map pid (upd (pset s) idx p') = map pid (pset s)).
  { rewrite map_upd. apply upd_same. rewrite nth_error_map, E. simpl. now rewrite Hp. }
  destruct (Nat.eqb_spec n 0) as [->|Hn].
  - injection H as <-. unfold ids_are_slots in *. cbn [pset]. now rewrite Hm, upd_length.
  - destruct (copy p') as [c| |] eqn:Ec; try discriminate. cbn [obind] in H. injection H as <-.
    unfold ids_are_slots in *. cbn [pset]. rewrite map_app, Hm, Hi, app_length, upd_length, map_length, seq_length.
    rewrite seq_app. f_equal. rewrite map_map. simpl. rewrite <- (seq_length n 0) at 2. clear.
    generalize (length (pset s)). intros a. rewrite seq_length. revert a.
    assert (G : forall m b a, map (fun x => (a + x)%nat) (seq b m) = seq (a + b)%nat m).
    { induction m as [|m IH]; intros b a; simpl; auto. f_equal. rewrite IH. f_equal. lia. }
    intros a. rewrite G. now rewrite Nat.add_0_r.
Qed.

Lemma copies_ids : forall P D calls (s s' : pf P D), copies s calls = Val s' ->
  ids_are_slots (pset s) -> ids_are_slots (pset s').
Proof.
  intros P D. induction calls as [|[[idx n] w] r IH]; intros s s' H Hi; simpl in H; [now injection H as <-|].
  destruct (copyParticle s idx n w) as [s1| |] eqn:E; try discriminate. simpl in H.
  eapply IH; eauto. eapply copyParticle_ids; eauto.
Qed.

Lemma fresh_ids : forall P D n (x0 : P) w, ids_are_slots (pset (addParticles (@pf_empty P D) n x0 w)).
Proof.
  intros. unfold ids_are_slots, addParticles, pf_empty. simpl. rewrite map_map, map_length, seq_length. simpl. apply map_id.
Qed.

Lemma c27_fresh : forall P D n (x0 : P) w calls (s : pf P D),
  copies (addParticles pf_empty n x0 w) calls = Val s ->
  (forall i p, nth_error (pset s) i = Some p -> pid p = i).
Proof.
  intros P D n x0 w calls s H i p Hp. assert (G := copies_ids P D calls _ s H (fresh_ids P D n x0 w)).
  assert (E : nth_error (map pid (pset s)) i = Some (pid p)) by (rewrite nth_error_map, Hp; reflexivity).
  rewrite G in E. assert (Hl : (i < length (pset s))%nat) by (apply nth_error_Some; congruence).
  rewrite nth_error_nth' with (d := 0%nat) in E by now rewrite seq_length.
  rewrite seq_nth in E by auto. injection E as <-. reflexivity.
Qed.

Lemma c27_parent : forall P D (s : pf P D) n u w, weights_of (pset s) w -> all_data (pset s) -> (0 <= u /\ u < 1)%Qc ->
  (forall i p, nth_error (pset s) i = Some p -> pid p = i) ->
  exists s', resample s n true u = Val (s', true) /\
  forall j q, nth_error (pset s') j = Some q -> exists p, nth_error (pset s) (pparent q) = Some p /\
    ppose q = ppose p /\ pprev q = pprev p /\ pdata q = pdata p.
Proof.
  intros P D s n u w Hw Hd Hu Hid.
  destruct (resample_ok P D s n u w Hw Hd Hu) as (s' & sel & src & H1 & _ & _ & _ & [_ H3] & _).
  exists s'. split; [auto|]. intros j q Hq. destruct (H3 j q Hq) as (i & p & _ & Hp & Ha & Hb & Hc & _ & He & _).
  exists p. rewrite He, (Hid i p Hp). auto.
Qed.

Lemma c59_data : forall P D (s : pf P D) n u w, weights_of (pset s) w -> all_data (pset s) -> (0 <= u /\ u < 1)%Qc ->
  exists s' src, resample s n true u = Val (s', true) /\ built_from (pset s) (pset s') src /\ all_data (pset s').
Proof.
  intros P D s n u w Hw Hd Hu.
  destruct (resample_ok P D s n u w Hw Hd Hu) as (s' & sel & src & H1 & _ & _ & _ & H3 & _).
  exists s', src. split; [auto|]. split; [auto|]. intros q Hq. apply In_nth_error in Hq as (j & Hq).
  destruct H3 as [_ H3]. destruct (H3 j q Hq) as (i & p & _ & Hp & _ & _ & Hc & _). rewrite Hc. apply Hd. now apply nth_error_In in Hp.
Qed.
