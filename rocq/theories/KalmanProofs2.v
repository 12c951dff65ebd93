(** The two overloads of correct compared. *)
From Coq Require Import List Bool Arith ZArith QArith Qcanon Lia.
From Verif Require Import Base ListUtil QcLra Loop KalmanModel KalmanSpec.
Import ListNotations.
Local Open Scope nat_scope.

Lemma resize_length : forall {A : Type} (d : A) n l, length (resize d n l) = n.
Proof. intros. unfold resize. rewrite app_length, firstn_length, repeat_length. lia. Qed.

Lemma resize_nth : forall {A : Type} (d : A) n l i, i < n -> nth_error (resize d n l) i = Some (nth i l d).
Proof.
  intros A d n l i Hi. unfold resize. destruct (Nat.lt_ge_cases i (length l)) as [H|H].
  - rewrite nth_error_app1 by (rewrite firstn_length; lia).
    rewrite nth_error_firstn by exact Hi. apply nth_error_nth'. exact H.
  - rewrite nth_error_app2 by (rewrite firstn_length; lia).
    rewrite firstn_length, (nth_overflow l) by lia.
    apply nth_error_repeat. lia.
Qed.

Section Batch.
Variables Pose Lmk Meas Exp Inn : Type.
Variable measure : Pose -> Lmk -> bool * Exp.
Variable innovation : Exp -> Meas -> option Inn.
Variable update : Lmk -> Exp -> Inn -> Lmk.
Variable is_zero : Lmk -> bool.
Variable lik : Exp -> Meas -> option Qc.
Variable maha : Exp -> Meas -> Qc.
Variable lmk_new : Lmk.

(** Every call of the first overload for one of the measurements. *)
Definition one (pose : Pose) (cur : Lmk) (s : outs Lmk) (i : nat) (z : Meas) : outcome (out1 Lmk) :=
  correct measure innovation update is_zero lik maha false pose z cur (nth i (b_lmk s) lmk_new)
    (option_map (fun _ => 0%Qc) (b_lik s)) (option_map (fun _ => 0%Qc) (b_md s)).

(** Entry i of a vector behind a pointer. *)
Definition entry (v : option (list Qc)) (i : nat) : option Qc :=
  match v with None => None | Some l => nth_error l i end.
(** A pointer to a vector of n entries, or NULL where [p] is NULL. *)
Definition shaped (p : option (list Qc)) (n : nat) (v : option (list Qc)) : Prop :=
  match p, v with None, None => True | Some _, Some l => length l = n | _, _ => False end.

Lemma batch_ok : forall pose zs cur s e, measure pose cur = (true, e) ->
  exists s', correct_batch measure innovation update lik maha lmk_new pose zs cur s = Val (true, s') /\
    length (b_lmk s') = length zs /\ shaped (b_lik s) (length zs) (b_lik s') /\ shaped (b_md s) (length zs) (b_md s') /\
    forall i z, nth_error zs i = Some z -> exists o, one pose cur s i z = Val o /\
      nth_error (b_lmk s') i = Some (o_lmk o) /\
      (b_lik s <> None -> entry (b_lik s') i = (if o_ret o then o_lik o else Some 0%Qc)) /\
      (b_lik s <> None -> b_md s <> None -> entry (b_md s') i = (if o_ret o then o_md o else Some 0%Qc)).
Proof.
  intros pose zs cur s e Hm. unfold correct_batch. rewrite Hm. cbn [negb].
  set (n := length zs).
  set (s1 := Outs (resize lmk_new n (b_lmk s)) (option_map (resize 0%Qc n) (b_lik s)) (option_map (resize 0%Qc n) (b_md s))).
  destruct (for_inv (fun k (t : outs Lmk) =>
    length (b_lmk t) = n /\ shaped (b_lik s) n (b_lik t) /\ shaped (b_md s) n (b_md t) /\
    (forall i z, nth_error zs i = Some z -> i < k -> exists o, one pose cur s i z = Val o /\
      nth_error (b_lmk t) i = Some (o_lmk o) /\
      (b_lik s <> None -> entry (b_lik t) i = (if o_ret o then o_lik o else Some 0%Qc)) /\
      (b_lik s <> None -> b_md s <> None -> entry (b_md t) i = (if o_ret o then o_md o else Some 0%Qc))) /\
    (forall i, k <= i -> i < n -> nth_error (b_lmk t) i = Some (nth i (b_lmk s) lmk_new)))
    (batch_step _ _ _ _ innovation update lik maha cur e zs) n s1) as (s' & E & HI).
  - split; [apply resize_length|]. split; [|split; [|split]].
    + unfold s1, shaped. cbn. destruct (b_lik s); cbn; [apply resize_length|exact I].
    + unfold s1, shaped. cbn. destruct (b_md s); cbn; [apply resize_length|exact I].
    + intros i z _ Hi. lia.
    + intros i _ Hi. unfold s1. cbn [b_lmk]. apply resize_nth. exact Hi.
  - intros k t Hk (Hl & Hsl & Hsd & Hdone & Hrest).
    destruct (nth_error zs k) as [z|] eqn:Ez; [|apply nth_error_None in Ez; unfold n in Hk; lia].
    unfold batch_step. rewrite Ez. cbn [of_option obind].
    assert (Hone : one pose cur s k z = match innovation e z with
      | None => Val (Out1 false (nth k (b_lmk s) lmk_new) (option_map (fun _ => 0%Qc) (b_lik s)) (option_map (fun _ => 0%Qc) (b_md s)))
      | Some i => Val (Out1 true (update cur e i)
          (option_map (fun _ => de_nan (lik e z)) (b_lik s))
          (match b_lik s with None => option_map (fun _ => 0%Qc) (b_md s) | Some _ => option_map (fun _ => maha e z) (b_md s) end)) end).
    { unfold one, correct. rewrite Hm. cbn [negb]. destruct (innovation e z); [|reflexivity]. cbn [andb].
      destruct (b_lik s); cbn [option_map]; [destruct (b_md s); reflexivity|reflexivity]. }
    (* both branches end in a state that differs from t at index k only *)
    assert (Hfin : forall t', (exists ls' lv dv, t' = Outs ls' lv dv /\
        length ls' = n /\ (forall i, i <> k -> nth_error ls' i = nth_error (b_lmk t) i) /\
        shaped (b_lik s) n lv /\ shaped (b_md s) n dv /\
        (forall i, i <> k -> entry lv i = entry (b_lik t) i) /\ (forall i, i <> k -> entry dv i = entry (b_md t) i) /\
        exists o, one pose cur s k z = Val o /\ nth_error ls' k = Some (o_lmk o) /\
          (b_lik s <> None -> entry lv k = (if o_ret o then o_lik o else Some 0%Qc)) /\
          (b_lik s <> None -> b_md s <> None -> entry dv k = (if o_ret o then o_md o else Some 0%Qc))) ->
      length (b_lmk t') = n /\ shaped (b_lik s) n (b_lik t') /\ shaped (b_md s) n (b_md t') /\
      (forall i z, nth_error zs i = Some z -> i < S k -> exists o, one pose cur s i z = Val o /\
        nth_error (b_lmk t') i = Some (o_lmk o) /\
        (b_lik s <> None -> entry (b_lik t') i = (if o_ret o then o_lik o else Some 0%Qc)) /\
        (b_lik s <> None -> b_md s <> None -> entry (b_md t') i = (if o_ret o then o_md o else Some 0%Qc))) /\
      (forall i, S k <= i -> i < n -> nth_error (b_lmk t') i = Some (nth i (b_lmk s) lmk_new))).
    { intros t' (ls' & lv & dv & -> & HL & Hoth & HSl & HSd & Hlo & Hdo & o & Ho & HA & HB & HC). cbn [b_lmk b_lik b_md].
      split; [exact HL|]. split; [exact HSl|]. split; [exact HSd|]. split.
      - intros i z' Hz' Hi. destruct (Nat.eq_dec i k) as [->|Hne].
        + rewrite Ez in Hz'. inversion Hz'; subst z'. exists o. auto.
        + destruct (Hdone i z' Hz' ltac:(lia)) as (o' & G1 & G2 & G3 & G4). exists o'.
          rewrite (Hoth i Hne), (Hlo i Hne), (Hdo i Hne). auto.
      - intros i Hi1 Hi2. rewrite Hoth by lia. apply Hrest; lia. }
    assert (Hupd : forall v : option (list Qc), forall p x, shaped p n v ->
      exists v', put_opt v k x = Val v' /\ shaped p n v' /\ (forall i, i <> k -> entry v' i = entry v i) /\
        (p <> None -> entry v' k = Some x)).
    { intros v p x Hs. destruct v as [l|]; destruct p as [pl|]; cbn in Hs; try contradiction.
      - exists (Some (upd l k x)). unfold put_opt, put_at.
        assert (Hkl : (k <? length l) = true) by (apply Nat.ltb_lt; lia). rewrite Hkl. cbn [obind].
        split; [reflexivity|]. split; [cbn; rewrite upd_length; exact Hs|]. split.
        + intros i Hne. cbn. apply nth_error_upd_neq. intro; subst; contradiction.
        + intros _. cbn. apply nth_error_upd_eq. lia.
      - exists None. cbn. split; [reflexivity|]. split; [exact I|]. split; [reflexivity|]. intro Hn; contradiction. }
    destruct (innovation e z) as [inn|] eqn:Ei.
    + assert (Hkl : (k <? length (b_lmk t)) = true) by (apply Nat.ltb_lt; lia). rewrite Hkl. cbn [obind].
      destruct (b_lik t) as [v|] eqn:Ev.
      * destruct (b_lik s) as [p|] eqn:Ep; [|contradiction].
        destruct (Hupd (b_md t) (b_md s) (maha e z) Hsd) as (d' & Hd1 & Hd2 & Hd3 & Hd4). rewrite Hd1. cbn [obind].
        cbn in Hsl. unfold put_at. assert (Hkv : (k <? length v) = true) by (apply Nat.ltb_lt; lia). rewrite Hkv. cbn [obind].
        eexists. split; [reflexivity|]. apply Hfin. do 3 eexists. split; [reflexivity|].
        split; [rewrite upd_length; exact Hl|].
        split; [intros i Hne; apply nth_error_upd_neq; intro; subst; contradiction|].
        split; [cbn; rewrite upd_length; exact Hsl|]. split; [exact Hd2|].
        split; [intros i Hne; cbn; apply nth_error_upd_neq; intro; subst; contradiction|]. split; [exact Hd3|].
        eexists. split; [exact Hone|]. cbn [o_lmk o_ret o_lik o_md option_map].
        split; [apply nth_error_upd_eq; lia|]. split; [intros _; cbn; apply nth_error_upd_eq; lia|].
        intros _ Hmd. rewrite (Hd4 Hmd). destruct (b_md s); [reflexivity|contradiction].
      * destruct (b_lik s) as [p|] eqn:Ep; [contradiction|].
        eexists. split; [reflexivity|]. apply Hfin. do 3 eexists. split; [reflexivity|].
        split; [rewrite upd_length; exact Hl|].
        split; [intros i Hne; apply nth_error_upd_neq; intro; subst; contradiction|].
        split; [exact I|]. split; [exact Hsd|].
        split; [reflexivity|]. split; [reflexivity|].
        eexists. split; [exact Hone|]. cbn [o_lmk o_ret o_lik o_md option_map].
        split; [apply nth_error_upd_eq; lia|]. split; intro HN; contradiction.
    + destruct (Hupd (b_lik t) (b_lik s) 0%Qc Hsl) as (l' & Hl1 & Hl2 & Hl3 & Hl4). rewrite Hl1. cbn [obind].
      destruct (Hupd (b_md t) (b_md s) 0%Qc Hsd) as (d' & Hd1 & Hd2 & Hd3 & Hd4). rewrite Hd1. cbn [obind].
      eexists. split; [reflexivity|]. apply Hfin. do 3 eexists. split; [reflexivity|].
      split; [exact Hl|]. split; [reflexivity|]. split; [exact Hl2|]. split; [exact Hd2|].
      split; [exact Hl3|]. split; [exact Hd3|].
      eexists. split; [exact Hone|]. cbn [o_lmk o_ret o_lik o_md].
      split; [apply Hrest; lia|]. split; [exact Hl4|intros _; exact Hd4].
  - exists s'. rewrite E. cbn [obind]. split; [reflexivity|]. destruct HI as (H1 & H2 & H3 & H4 & _).
    split; [exact H1|]. split; [exact H2|]. split; [exact H3|].
    intros i z Hz. apply H4; [exact Hz|]. apply nth_error_lt in Hz. exact Hz.
Qed.

(** Without a valid expected measurement: defined only when the vectors are long enough. *)
Definition long_enough (v : option (list Qc)) (n : nat) : Prop :=
  match v with None => True | Some l => n <= length l end.

Lemma put_opt_ok : forall v k x, long_enough v (S k) ->
  exists v', put_opt v k x = Val v' /\ (forall n, long_enough v n -> long_enough v' n) /\
    (forall i, entry v' i = if (i =? k) && (match v with None => false | _ => true end) then Some x else entry v i).
Proof.
  intros [l|] k x H; cbn in H.
  - unfold put_opt, put_at. assert (Hk : (k <? length l) = true) by (apply Nat.ltb_lt; lia). rewrite Hk. cbn [obind].
    eexists. split; [reflexivity|]. split; [intros n; cbn; rewrite upd_length; auto|].
    intros i. rewrite andb_true_r. cbn [entry]. destruct (Nat.eqb_spec i k) as [->|Hne].
    + apply nth_error_upd_eq. lia.
    + apply nth_error_upd_neq. intro; subst; contradiction.
  - exists None. split; [reflexivity|]. split; [auto|]. intros i. rewrite andb_false_r. reflexivity.
Qed.

Lemma put_opt_isnone : forall v k x v', put_opt v k x = Val v' ->
  (match v' with None => false | _ => true end) = (match v with None => false | _ => true end).
Proof.
  intros [l|] k x v' H; cbn in H; [|inversion H; reflexivity].
  unfold put_at in H. destruct (k <? length l); cbn in H; [inversion H; reflexivity|discriminate].
Qed.

Definition is_ptr {A : Type} (v : option A) : bool := match v with None => false | _ => true end.

Lemma batch_invalid : forall pose zs cur s e, measure pose cur = (false, e) ->
  long_enough (b_lik s) (length zs) -> long_enough (b_md s) (length zs) ->
  exists s', correct_batch measure innovation update lik maha lmk_new pose zs cur s = Val (false, s') /\
    b_lmk s' = b_lmk s /\
    (forall i, entry (b_lik s') i = if (i <? length zs) && is_ptr (b_lik s) then Some 0%Qc else entry (b_lik s) i) /\
    (forall i, entry (b_md s') i = if (i <? length zs) && is_ptr (b_md s) then Some 0%Qc else entry (b_md s) i).
Proof.
  intros pose zs cur s e Hm Hl Hd. unfold correct_batch. rewrite Hm. cbn [negb].
  destruct (for_inv (fun k (t : outs Lmk) => b_lmk t = b_lmk s /\
    long_enough (b_lik t) (length zs) /\ long_enough (b_md t) (length zs) /\
    is_ptr (b_lik t) = is_ptr (b_lik s) /\ is_ptr (b_md t) = is_ptr (b_md s) /\
    (forall i, entry (b_lik t) i = if (i <? k) && is_ptr (b_lik s) then Some 0%Qc else entry (b_lik s) i) /\
    (forall i, entry (b_md t) i = if (i <? k) && is_ptr (b_md s) then Some 0%Qc else entry (b_md s) i))
    (@clear_step Lmk) (length zs) s) as (s' & E & HI).
  - split; [reflexivity|]. split; [exact Hl|]. split; [exact Hd|].
    split; [reflexivity|]. split; [reflexivity|]. split; intros i; reflexivity.
  - intros k t Hk (H1 & H2 & H3 & H4 & H5 & H6 & H7). unfold clear_step.
    assert (L : long_enough (b_lik t) (S k)) by (destruct (b_lik t); cbn in *; lia).
    assert (D : long_enough (b_md t) (S k)) by (destruct (b_md t); cbn in *; lia).
    destruct (put_opt_ok (b_lik t) k 0%Qc L) as (l' & El & Ll & Nl). rewrite El. cbn [obind].
    destruct (put_opt_ok (b_md t) k 0%Qc D) as (d' & Ed & Ld & Nd). rewrite Ed. cbn [obind].
    eexists. split; [reflexivity|]. cbn [b_lmk b_lik b_md].
    split; [exact H1|]. split; [auto|]. split; [auto|].
    split; [rewrite <- H4; exact (put_opt_isnone _ _ _ _ El)|].
    split; [rewrite <- H5; exact (put_opt_isnone _ _ _ _ Ed)|].
    split; intros i.
    + rewrite Nl, H6. fold (is_ptr (b_lik t)). rewrite H4.
      destruct (Nat.eqb_spec i k) as [->|Hne]; destruct (is_ptr (b_lik s)); rewrite ?andb_true_r, ?andb_false_r; cbn [andb].
      * assert ((k <? S k) = true) by (apply Nat.ltb_lt; lia). rewrite H. reflexivity.
      * reflexivity.
      * assert ((i <? S k) = (i <? k)) by (destruct (Nat.ltb_spec i k), (Nat.ltb_spec i (S k)); try reflexivity; lia). rewrite H. reflexivity.
      * reflexivity.
    + rewrite Nd, H7. fold (is_ptr (b_md t)). rewrite H5.
      destruct (Nat.eqb_spec i k) as [->|Hne]; destruct (is_ptr (b_md s)); rewrite ?andb_true_r, ?andb_false_r; cbn [andb].
      * assert ((k <? S k) = true) by (apply Nat.ltb_lt; lia). rewrite H. reflexivity.
      * reflexivity.
      * assert ((i <? S k) = (i <? k)) by (destruct (Nat.ltb_spec i k), (Nat.ltb_spec i (S k)); try reflexivity; lia). rewrite H. reflexivity.
      * reflexivity.
  - exists s'. rewrite E. cbn [obind]. split; [reflexivity|]. destruct HI as (H1 & _ & _ & _ & _ & H6 & H7). auto.
Qed.

(** Too short a vector: the exception. *)
Lemma batch_throws : forall pose zs cur s e, measure pose cur = (false, e) ->
  ~ (long_enough (b_lik s) (length zs) /\ long_enough (b_md s) (length zs)) ->
  correct_batch measure innovation update lik maha lmk_new pose zs cur s = UB Aborted.
Proof.
  intros pose zs cur s e Hm Hs. unfold correct_batch. rewrite Hm. cbn [negb].
  assert (G : forall d k t, k + d = length zs ->
    ~ (long_enough (b_lik t) (length zs) /\ long_enough (b_md t) (length zs)) ->
    (long_enough (b_lik t) k /\ long_enough (b_md t) k) -> for_from (@clear_step Lmk) k d t = UB Aborted).
  { induction d as [|d IH]; intros k t Ek Hn Hk; cbn [for_from].
    - exfalso. apply Hn. replace (length zs) with k by lia. exact Hk.
    - unfold clear_step at 1.
      assert (P1 : forall v x, long_enough v k -> (long_enough v (S k) /\ exists v', put_opt v k x = Val v' /\ (forall n, long_enough v' n <-> long_enough v n)) \/
                (~ long_enough v (S k) /\ put_opt v k x = UB Aborted)).
      { intros [l|] x Hv; cbn in Hv.
        - destruct (Nat.lt_ge_cases k (length l)) as [Hlt|Hge].
          + left. split; [cbn; lia|]. unfold put_opt, put_at. apply Nat.ltb_lt in Hlt. rewrite Hlt. cbn [obind].
            eexists. split; [reflexivity|]. intros n. cbn. rewrite upd_length. reflexivity.
          + right. split; [cbn; lia|]. unfold put_opt, put_at. apply Nat.ltb_ge in Hge. rewrite Hge. reflexivity.
        - left. split; [exact I|]. exists None. split; [reflexivity|]. intros n. reflexivity. }
      destruct (P1 (b_lik t) 0%Qc (proj1 Hk)) as [(L1 & l' & El & Ll)|[L1 El]]; rewrite El; cbn [obind]; [|reflexivity].
      destruct (P1 (b_md t) 0%Qc (proj2 Hk)) as [(D1 & d' & Ed & Ld)|[D1 Ed]]; rewrite Ed; cbn [obind]; [|reflexivity].
      apply IH; [lia| |].
      + cbn [b_lik b_md]. rewrite Ll, Ld. exact Hn.
      + cbn [b_lik b_md]. rewrite Ll, Ld. auto. }
  unfold for_. rewrite (G (length zs) 0 s eq_refl Hs); [reflexivity|].
  split; [destruct (b_lik s)|destruct (b_md s)]; cbn; auto; lia.
Qed.

(** A distance asked for without a likelihood is not computed. *)
Lemma no_distance : forall ck pose z cur old d o,
  correct measure innovation update is_zero lik maha ck pose z cur old None (Some d) = Val o -> o_md o = Some d.
Proof.
  intros ck pose z cur old d o. unfold correct. destruct (measure pose cur) as [ok e]. destruct ok; cbn [negb].
  - destruct (innovation e z).
    + destruct (ck && _); [discriminate|]. intro H. inversion H. reflexivity.
    + intro H. inversion H. reflexivity.
  - intro H. inversion H. reflexivity.
Qed.

End Batch.

(** What a call for one measurement writes. *)
Lemma outputs_ok :
  forall Pose Lmk Meas Exp Inn measure innovation update is_zero lik maha checked,
  forall (pose : Pose) (z : Meas) (cur old : Lmk) zl md o,
  @correct Pose Lmk Meas Exp Inn measure innovation update is_zero lik maha checked pose z cur old zl md = Val o ->
  (o_ret o = false -> o_lmk o = old /\ o_lik o = zl /\ o_md o = md) /\
  (o_ret o = true -> forall l0, zl = Some l0 ->
     o_lik o = Some (match lik (snd (measure pose cur)) z with Some v => v | None => 0%Qc end) /\
     o_md o = match md with None => None | Some _ => Some (maha (snd (measure pose cur)) z) end).
Proof.
  intros until o. unfold correct. destruct (measure pose cur) as [ok e]. cbn [snd].
  destruct ok; cbn [negb].
  - destruct (innovation e z) as [i|].
    + destruct (checked && _); [discriminate|].
      destruct zl; intro H; inversion H; cbn; split; intros; try discriminate; split; reflexivity.
    + intro H. inversion H. cbn. split; intros; [repeat split|discriminate].
  - intro H. inversion H. cbn. split; intros; [repeat split|discriminate].
Qed.
