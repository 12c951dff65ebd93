(** Expected number of landmarks for one measurement; birth tracks over histories of calls. *)
From Coq Require Import ZArith List Bool Arith QArith Qcanon Lia.
From Verif Require Import Base ListUtil QcLra PermanentSpec PermanentProofs RfsProofs LmbModel LmbSpec LmbEvents LmbProofs LmbProofs2
  MemberModel MemberSpec MemberProofs.
Import ListNotations.
Local Open Scope Qc_scope.

Section Count.
Context {G : Type}.
Variable probDet : G -> Qc.
Variable correct : nat -> G -> option (G * Qc).
Variable clutter : nat -> Qc.
Notation pd := (pd_of probDet).
Notation lik := (lik_of correct).
Notation fates := (fates probDet correct).
Notation fate := (fate probDet correct).

Definition q (t : track G) : Qc := 1 - tP t * pd t.
Fixpoint prodq (ts : list (track G)) : Qc := match ts with [] => 1 | t :: r => q t * prodq r end.
Definition mr (t : track G) : Qc := tP t * (1 - pd t) / q t.
Definition sr (t : track G) : Qc := tP t * (pd t * lik t 0%nat) / q t.
Notation L ts := (qsum (map mr ts)).
Notation S_ ts := (qsum (map sr ts)).
Notation X ts := (qsum (map (fun t => sr t * mr t) ts)).
Notation c := (clutter 0%nat).

Lemma joint1 : forall ts e, joint probDet correct clutter 1 ts e = fates ts e * (if seen 0 e then 1 else c).
Proof. intros ts e. unfold joint. cbn [false_alarms]. destruct (seen 0 e); ring. Qed.
Lemma sum_cons : forall s (f : list status -> Qc) l, qsum (map f (map (cons s) l)) = qsum (map (fun e => f (s :: e)) l).
Proof. intros s f l. now rewrite map_map. Qed.
Lemma none_seen : forall k e, In e (eenum k []) -> seen 0 e = false.
Proof.
  intros k e H. apply eenum_in in H as (_ & H & _). unfold seen. destruct (existsb _ e) eqn:E; [|reflexivity].
  apply existsb_exists in E as (s & Hs & Es). destruct s as [| |z]; try discriminate. destruct (H z Hs).
Qed.
Lemma enum0 : forall k, eenum (S k) [] = map (cons Gone) (eenum k []) ++ map (cons Missed) (eenum k []).
Proof. intros k. cbn [eenum flat_map]. now rewrite app_nil_r. Qed.
Lemma enum1 : forall k, eenum (S k) [0%nat] = map (cons Gone) (eenum k [0%nat]) ++ map (cons Missed) (eenum k [0%nat]) ++
  map (cons (Seen 0)) (eenum k []).
Proof. intros k. cbn [eenum flat_map remove]. destruct (Nat.eq_dec 0 0) as [_|N]; [|contradiction]. now rewrite app_nil_r. Qed.
Lemma sum_plus : forall {Y} (f g : Y -> Qc) l, qsum (map (fun x => f x + g x) l) = qsum (map f l) + qsum (map g l).
Proof. intros Y f g. induction l as [|x l IH]; cbn [map]; rewrite ?qsum_nil, ?qsum_cons, ?IH; ring. Qed.

Lemma sum0 : forall ts, (forall t, In t ts -> q t <> 0) ->
  qsum (map (fates ts) (eenum (length ts) [])) = prodq ts /\
  qsum (map (fun e => fates ts e * head_count e) (eenum (length ts) [])) = prodq ts * L ts.
Proof.
  induction ts as [|t ts IH]; intros H.
  - cbn. split; reflexivity.
  - destruct (IH (fun u Hu => H u (or_intror Hu))) as [A B]. pose proof (H t (or_introl eq_refl)) as Q.
    cbn [length]. rewrite enum0, !map_app, !qsum_app, !sum_cons. cbn [MemberSpec.fates MemberSpec.fate head_count map prodq].
    rewrite qsum_cons. split.
    + rewrite !qsum_scale, A. unfold q. ring.
    + rewrite (qsum_ext _ (fun e => (1 - tP t) * (fates ts e * head_count e))) by (intros; ring).
      rewrite (qsum_ext (fun e => tP t * (1 - pd t) * fates ts e * (1 + head_count e))
                 (fun e => tP t * (1 - pd t) * (fates ts e + fates ts e * head_count e))) by (intros; ring).
      rewrite !qsum_scale, sum_plus, A, B.
      assert (E : q t * mr t = tP t * (1 - pd t)) by (unfold mr; rewrite Qcmult_comm; now apply Qcdiv_mul).
      assert (Eg : 1 - tP t = q t - q t * mr t) by (rewrite E; unfold q; ring).
      rewrite <- E, Eg. ring.
Qed.
Lemma sum1 : forall ts, (forall t, In t ts -> q t <> 0) ->
  qsum (map (joint probDet correct clutter 1 ts) (eenum (length ts) [0%nat])) = prodq ts * (c + S_ ts) /\
  qsum (map (fun e => joint probDet correct clutter 1 ts e * head_count e) (eenum (length ts) [0%nat])) =
    prodq ts * (c * L ts + S_ ts + S_ ts * L ts - X ts).
Proof.
  induction ts as [|t ts IH]; intros H.
  - cbn [length eenum map head_count]. rewrite !qsum_cons, !qsum_nil. rewrite joint1. cbn [MemberSpec.fates seen existsb prodq]. split; ring.
  - destruct (IH (fun u Hu => H u (or_intror Hu))) as [A B]. destruct (sum0 ts (fun u Hu => H u (or_intror Hu))) as [A0 B0].
    pose proof (H t (or_introl eq_refl)) as Q.
    cbn [length]. rewrite enum1, !map_app, !qsum_app, !sum_cons. cbn [map prodq]. rewrite !qsum_cons.
    assert (E1 : forall e, joint probDet correct clutter 1 (t :: ts) (Gone :: e) = (1 - tP t) * joint probDet correct clutter 1 ts e).
    { intros e. rewrite !joint1. cbn [MemberSpec.fates MemberSpec.fate seen existsb orb]. fold (seen 0 e). ring. }
    assert (E2 : forall e, joint probDet correct clutter 1 (t :: ts) (Missed :: e) = tP t * (1 - pd t) * joint probDet correct clutter 1 ts e).
    { intros e. rewrite !joint1. cbn [MemberSpec.fates MemberSpec.fate seen existsb orb]. fold (seen 0 e). ring. }
    assert (E3 : forall e, joint probDet correct clutter 1 (t :: ts) (Seen 0 :: e) = tP t * (pd t * lik t 0%nat) * fates ts e).
    { intros e. rewrite !joint1. cbn [MemberSpec.fates MemberSpec.fate seen existsb orb Nat.eqb]. ring. }
    assert (Em : q t * mr t = tP t * (1 - pd t)) by (unfold mr; rewrite Qcmult_comm; now apply Qcdiv_mul).
    assert (Es : q t * sr t = tP t * (pd t * lik t 0%nat)) by (unfold sr; rewrite Qcmult_comm; now apply Qcdiv_mul).
    assert (Eg : 1 - tP t = q t - q t * mr t) by (rewrite Em; unfold q; ring).
    split.
    + rewrite (qsum_ext _ _ _ (fun e _ => E1 e)), (qsum_ext _ _ (eenum (length ts) [0%nat]) (fun e _ => E2 e)),
        (qsum_ext _ _ (eenum (length ts) []) (fun e _ => E3 e)).
      rewrite !qsum_scale, A, A0, <- Em, <- Es, Eg. ring.
    + rewrite (qsum_ext (fun e => joint probDet correct clutter 1 (t :: ts) (Gone :: e) * head_count (Gone :: e))
                 (fun e => (1 - tP t) * (joint probDet correct clutter 1 ts e * head_count e))) by (intros; rewrite E1; cbn [head_count]; ring).
      rewrite (qsum_ext (fun e => joint probDet correct clutter 1 (t :: ts) (Missed :: e) * head_count (Missed :: e))
                 (fun e => tP t * (1 - pd t) * (joint probDet correct clutter 1 ts e + joint probDet correct clutter 1 ts e * head_count e)))
        by (intros; rewrite E2; cbn [head_count]; ring).
      rewrite (qsum_ext (fun e => joint probDet correct clutter 1 (t :: ts) (Seen 0 :: e) * head_count (Seen 0 :: e))
                 (fun e => tP t * (pd t * lik t 0%nat) * (fates ts e + fates ts e * head_count e)))
        by (intros; rewrite E3; cbn [head_count]; ring).
      rewrite !qsum_scale, !sum_plus, A, B, A0, B0, <- Em, <- Es, Eg. ring.
Qed.

Variable ts : list (track G).
Hypothesis Hs : sensor_ok probDet correct clutter 1.
Hypothesis Hg : List.Forall fair ts.
Hypothesis H1 : forall t, In t ts -> tP t * pd t <> 1.

Lemma q_pos : forall t, In t ts -> 0 < q t.
Proof using Hs Hg H1. intros t Ht. exact (miss_pos probDet correct clutter 1 ts Hs Hg H1 t Ht). Qed.
Lemma prodq_pos : forall l, (forall t, In t l -> 0 < q t) -> 0 < prodq l.
Proof using.
  induction l as [|t l IH]; intros H; cbn [prodq]; [reflexivity|]. apply mul_pos; [apply H; now left|].
  apply IH. intros u Hu. apply H. now right.
Qed.
Lemma old_sum : qsum (map tP (map (old_track probDet) ts)) = L ts.
Proof using. rewrite map_map. reflexivity. Qed.
Lemma num_sum : cb_num probDet correct ts 0 = S_ ts - X ts.
Proof using Hs Hg H1.
  unfold cb_num. assert (Hq : forall t, In t ts -> q t <> 0) by (intros t Ht; apply Qcpos_neq; now apply q_pos).
  revert Hq. clear Hg H1 Hs. induction ts as [|t l IH]; intros Hq; cbn [map]; rewrite ?qsum_nil, ?qsum_cons; [ring|].
  rewrite IH by (intros u Hu; apply Hq; now right). pose proof (Hq t (or_introl eq_refl)) as Q. fold (q t).
  unfold sr, mr. assert (E : 1 - tP t = q t - tP t * (1 - pd t)) by (unfold q; ring). rewrite E. field. exact Q.
Qed.
Lemma den_sum : cb_den probDet correct clutter ts 0 = c + S_ ts.
Proof using. reflexivity. Qed.

Lemma count_one : expected_count probDet correct clutter 1 ts
  (qsum (map tP (map (old_track probDet) ts)) + n_P (made probDet correct clutter ts 0)).
Proof using Hs Hg H1.
  exists (eenum (length ts) [0%nat]). split; [apply eenum_nodup; repeat constructor; intros []|].
  split; [intros e; rewrite eenum_in, event_ev; reflexivity|].
  assert (Hq : forall t, In t ts -> q t <> 0) by (intros t Ht; apply Qcpos_neq; now apply q_pos).
  destruct (sum1 ts Hq) as [A B]. rewrite A, B.
  pose proof (prodq_pos ts q_pos) as P. pose proof (den_pos probDet correct clutter 1 ts Hs Hg H1 0%nat ltac:(lia)) as D.
  rewrite den_sum in D. split; [apply Qcpos_neq; now apply mul_pos|].
  rewrite old_sum. cbn [n_P made]. rewrite num_sum, den_sum. field. split; [exact (Qcpos_neq _ D)|exact (Qcpos_neq _ P)].
Qed.
Lemma kept_sum : forall (l : list (@new_track G)),
  qsum (map n_P (filter (fun t => if Qc_eq_dec (n_P t) 0 then false else true) l)) = qsum (map n_P l).
Proof using. intros l. apply qsum_filter. intros t _ E. destruct (Qc_eq_dec (n_P t) 0) as [C|C]; [exact C|discriminate]. Qed.
End Count.

(** Births. *)
Section Births.
Variable M : Type.
Notation births_of := (births_of M).

Lemma births_cb_ok : forall pe (zs : list M) id us, (forall k, In k us -> (k < length zs)%nat) ->
  exists l, births_cb M pe zs id us = Val l /\
  Forall2 (fun k b => nth_error zs k = Some (snd (fst b)) /\ fst (fst b) = id /\ snd b = pe) us l.
Proof.
  intros pe zs id. induction us as [|k us IH]; intros H; [exists []; now split|]. cbn [births_cb].
  destruct (nth_error zs k) as [z|] eqn:E; [|apply nth_error_None in E; pose proof (H k (or_introl eq_refl)); lia].
  destruct (IH (fun j Hj => H j (or_intror Hj))) as (l & El & F). cbn [of_option obind]. rewrite El.
  exists ((id, z, pe) :: l). split; [reflexivity|]. constructor; [now repeat split|exact F].
Qed.
Lemma births_lmb_ok : forall (zs : list M) id us, (forall k pe, In (k, pe) us -> (k < length zs)%nat) ->
  exists l, births_lmb M zs id (map fst us) (map snd us) = Val l /\
  Forall2 (fun u b => nth_error zs (fst u) = Some (snd (fst b)) /\ fst (fst b) = id /\ snd b = snd u) us l.
Proof.
  intros zs id. induction us as [|[k pe] us IH]; intros H; [exists []; now split|]. cbn [births_lmb map fst snd].
  destruct (nth_error zs k) as [z|] eqn:E; [|apply nth_error_None in E; pose proof (H k pe (or_introl eq_refl)); lia].
  destruct (IH (fun j q Hj => H j q (or_intror Hj))) as (l & El & F). cbn [of_option obind]. rewrite El.
  exists ((id, z, pe) :: l). split; [reflexivity|]. constructor; [now repeat split|exact F].
Qed.
Lemma Forall2_map_l : forall {A B C} (P : B -> C -> Prop) (f : A -> B) l m, Forall2 P (map f l) m <-> Forall2 (fun a => P (f a)) l m.
Proof.
  intros A B C P f. induction l as [|a l IH]; intros m; cbn [map]; (split; intros H; inversion H; subst; constructor); auto; now apply IH.
Qed.
Lemma slot_ok : forall kind (zs : list M) id us born,
  (forall k pe, In (k, pe) us -> (k < length zs)%nat) ->
  exists l, birth_slot M kind zs (Pslot M id (map fst us) (map snd us) born) =
    Val (Pslot M id [] (match kind with Some _ => map snd us | None => [] end) (born ++ l)) /\ births_of kind zs id us l.
Proof.
  intros kind zs id us born H. unfold birth_slot, MemberSpec.births_of. cbn [p_id p_unused p_pe p_born]. destruct kind as [pe|].
  - destruct (births_cb_ok pe zs id (rev (map fst us))) as (l & E & F).
    { intros k Hk. rewrite <- in_rev in Hk. apply in_map_iff in Hk as ([k0 q] & <- & Hin). exact (H k0 q Hin). }
    rewrite E. cbn [obind]. exists l. split; [reflexivity|]. rewrite <- map_rev in F. now apply Forall2_map_l in F.
  - destruct (births_lmb_ok zs id (rev us)) as (l & E & F).
    { intros k pe Hk. rewrite <- in_rev in Hk. exact (H k pe Hk). }
    rewrite !map_rev in E. rewrite E. cbn [obind]. exists l. split; [|exact F].
    rewrite !map_length, Nat.sub_diag. reflexivity.
Qed.

(** Every slot's lists fit the stored measurements. *)
Definition fits (zs : list M) (s : pslot M) : Prop :=
  (forall k, In k (p_unused M s) -> (k < length zs)%nat) /\ (length (p_unused M s) <= length (p_pe M s))%nat.
Definition idle (s : pslot M) : Prop := p_unused M s = [].
Lemma fits_birth : forall kind zs s, fits zs s -> exists s', birth_slot M kind zs s = Val s' /\ idle s'.
Proof.
  intros kind zs s [A B]. unfold birth_slot. destruct kind as [pe|].
  - destruct (births_cb_ok pe zs (p_id M s) (rev (p_unused M s))) as (l & E & _).
    { intros k Hk. rewrite <- in_rev in Hk. now apply A. }
    rewrite E. cbn [obind]. eexists. split; reflexivity.
  - assert (H : forall us ps, (forall k, In k us -> (k < length zs)%nat) -> (length us <= length ps)%nat ->
               exists l, births_lmb M zs (p_id M s) us ps = Val l).
    { induction us as [|k us IH]; intros ps H1 H2; [exists []; reflexivity|]. cbn [births_lmb].
      destruct (nth_error zs k) as [z|] eqn:E; [|apply nth_error_None in E; pose proof (H1 k (or_introl eq_refl)); lia].
      destruct ps as [|pe ps]; [cbn in H2; lia|]. cbn [of_option obind].
      destruct (IH ps (fun j Hj => H1 j (or_intror Hj)) ltac:(cbn in H2; lia)) as (l & El). rewrite El. eexists. reflexivity. }
    destruct (H (rev (p_unused M s)) (rev (p_pe M s))) as (l & E).
    { intros k Hk. rewrite <- in_rev in Hk. now apply A. }
    { rewrite !rev_length. exact B. }
    rewrite E. cbn [obind]. eexists. split; reflexivity.
Qed.
Lemma fits_births : forall kind zs l, Forall (fits zs) l -> exists l', birth_slots M kind zs l = Val l' /\ Forall idle l'.
Proof.
  intros kind zs. induction 1 as [|s l Hs Hl IH]; [exists []; split; [reflexivity|constructor]|]. cbn [birth_slots].
  destruct (fits_birth kind zs s Hs) as (s' & E & I). destruct IH as (l' & E' & I'). rewrite E. cbn [obind]. rewrite E'. cbn [obind].
  eexists. split; [reflexivity|]. now constructor.
Qed.
Lemma idle_fits : forall zs l, Forall idle l -> Forall (fits zs) l.
Proof.
  intros zs l. apply Forall_impl. intros s I. unfold idle in I. split; rewrite I; [intros k []|cbn; lia].
Qed.
Lemma mapi_fits : forall zs f (l : list (pslot M)) i, (forall j s, fits zs s -> fits zs (f j s)) -> Forall (fits zs) l -> Forall (fits zs) (mapi f i l).
Proof.
  intros zs f. induction l as [|s l IH]; intros i H F; [constructor|]. inversion F; subst. cbn [mapi]. constructor; auto.
Qed.
Lemma resample_fits : forall zs par l j s, fits zs s -> fits zs (resample_slot M par l j s).
Proof. intros zs par l j s H. unfold resample_slot. destruct (nth_error l (par j)); exact H. Qed.
Lemma step_fits : forall kind s c, numbers_ok M c ->
  Forall (fits (f_z M s)) (f_slots M s) ->
  match c with Update _ [] _ _ => Forall idle (f_slots M s) | _ => True end ->
  exists s', step M kind s c = Val s' /\ Forall (fits (f_z M s')) (f_slots M s') /\
  match c with Predict _ => Forall idle (f_slots M s') | Update _ [] _ _ => Forall idle (f_slots M s') | _ => True end.
Proof.
  intros kind s c Hn Hf Hi. destruct c as [zs f par|].
  - destruct zs as [|z zs].
    + cbn [step]. eexists. split; [reflexivity|]. cbn [f_z f_slots]. split; [now apply idle_fits|exact Hi].
    + cbn [step]. eexists. split; [reflexivity|]. cbn [f_z f_slots]. split; [|exact I].
      assert (F : Forall (fits (z :: zs)) (map (write_slot M f) (f_slots M s))).
      { apply Forall_map, Forall_forall. intros t _. unfold write_slot, fits. cbn [p_unused p_pe]. split; [|now rewrite !map_length].
        intros k Hk. apply in_map_iff in Hk as ([k0 pe] & <- & Hin). exact (Hn _ _ _ Hin). }
      destruct par as [par|]; [|exact F]. apply mapi_fits; [|exact F]. intros j t Ht. now apply resample_fits.
  - cbn [step]. destruct (fits_births kind (f_z M s) (f_slots M s) Hf) as (l & E & I). rewrite E. cbn [obind].
    eexists. split; [reflexivity|]. cbn [f_z f_slots]. split; [now apply idle_fits|exact I].
Qed.
Lemma run_fits : forall kind cs s pending, Forall (numbers_ok M) cs -> no_empty_update M pending cs ->
  Forall (fits (f_z M s)) (f_slots M s) -> (pending = false -> Forall idle (f_slots M s)) -> exists s', run M kind s cs = Val s'.
Proof.
  intros kind. induction cs as [|c cs IH]; intros s pending Hn He Hf Hp; [exists s; reflexivity|]. inversion Hn; subst. cbn [run].
  destruct (step_fits kind s c) as (s' & E & F & I); [assumption|exact Hf| |].
  - destruct c as [[|z zs] f par|]; try exact I. cbn [no_empty_update] in He. now apply Hp.
  - rewrite E. cbn [obind]. destruct c as [[|z zs] f par|]; cbn [no_empty_update] in He.
    + apply (IH s' false); try assumption; [apply He|auto].
    + apply (IH s' true); try assumption. discriminate.
    + apply (IH s' false); try assumption. auto.
Qed.
Lemma start_idle : forall n, Forall idle (f_slots M (start M n)).
Proof. intros n. unfold start. cbn [f_slots]. apply Forall_map, Forall_forall. intros i _. reflexivity. Qed.

Lemma births_all : forall kind zs f l,
  (forall id k pe, In (k, pe) (f id) -> (k < length zs)%nat) ->
  exists l', birth_slots M kind zs (map (write_slot M f) l) = Val l' /\ Forall idle l' /\
  Forall2 (fun s s' => p_id M s' = p_id M s /\
     exists bs, p_born M s' = p_born M s ++ bs /\ births_of kind zs (p_id M s) (f (p_id M s)) bs) l l'.
Proof.
  intros kind zs f. induction l as [|s l IH]; intros H; [exists []; repeat split; constructor|]. cbn [map birth_slots].
  unfold write_slot at 1. destruct (slot_ok kind zs (p_id M s) (f (p_id M s)) (p_born M s) (H (p_id M s))) as (bs & E & B).
  destruct (IH H) as (l' & E' & I & F). rewrite E. cbn [obind]. rewrite E'. cbn [obind]. eexists. split; [reflexivity|].
  split; [constructor; [reflexivity|exact I]|]. constructor; [|exact F]. cbn [p_id p_born]. split; [reflexivity|]. eauto.
Qed.
Lemma idle_births : forall kind zs l, Forall idle l -> exists l', birth_slots M kind zs l = Val l' /\
  map (p_born M) l' = map (p_born M) l /\ map (p_id M) l' = map (p_id M) l /\ Forall idle l'.
Proof.
  intros kind zs. induction 1 as [|s l Hs Hl IH]; [exists []; repeat split; constructor|]. destruct IH as (l' & E & A & B & C). cbn [birth_slots].
  unfold idle in Hs. unfold birth_slot. rewrite Hs. cbn [rev]. destruct kind as [pe|].
  - cbn [births_cb obind]. rewrite E. cbn [obind]. eexists. split; [reflexivity|]. cbn [map p_born p_id]. rewrite app_nil_r, A, B.
    repeat split. constructor; [reflexivity|exact C].
  - cbn [births_lmb obind]. rewrite E. cbn [obind]. eexists. split; [reflexivity|]. cbn [map p_born p_id]. rewrite app_nil_r, A, B.
    repeat split. constructor; [reflexivity|exact C].
Qed.
End Births.
