(** One block of the log-likelihood of RFSCeresSLAM: value and gradients. *)
From Coq Require Import Reals ZArith List Bool Arith Lia Lra Permutation Sorted.
From Verif Require Import Base ListUtil SensorModel CeresGradModel CeresGradSpec.
Import ListNotations.
Local Open Scope R_scope.

(** ** Sums *)
Lemma rsum_app : forall X (f : X -> R) l l', rsum f (l ++ l') = rsum f l + rsum f l'.
Proof. intros. unfold rsum. induction l as [|x l IH]; cbn; [ring|]. rewrite IH. ring. Qed.
Lemma rsum_ext : forall X (f g : X -> R) l, (forall x, In x l -> f x = g x) -> rsum f l = rsum g l.
Proof. intros X f g l H. unfold rsum. induction l as [|x l IH]; cbn; [reflexivity|]. rewrite H by (left; reflexivity). f_equal. apply IH. intros. apply H. right. assumption. Qed.
Lemma rsum_plus : forall X (f g : X -> R) l, rsum (fun x => f x + g x) l = rsum f l + rsum g l.
Proof. intros. unfold rsum. induction l as [|x l IH]; cbn; [ring|]. rewrite IH. ring. Qed.
Lemma rsum_minus : forall X (f g : X -> R) l, rsum (fun x => f x - g x) l = rsum f l - rsum g l.
Proof. intros. unfold rsum. induction l as [|x l IH]; cbn; [ring|]. rewrite IH. ring. Qed.
Lemma rsum_scale : forall X (f : X -> R) k l, rsum (fun x => k * f x) l = k * rsum f l.
Proof. intros. unfold rsum. induction l as [|x l IH]; cbn; [ring|]. rewrite IH. ring. Qed.
Lemma rsum_scale_r : forall X (f : X -> R) k l, rsum (fun x => f x * k) l = rsum f l * k.
Proof. intros. unfold rsum. induction l as [|x l IH]; cbn; [ring|]. rewrite IH. ring. Qed.
Lemma rsum_zero : forall X (f : X -> R) l, (forall x, In x l -> f x = 0) -> rsum f l = 0.
Proof. intros X f l H. rewrite (rsum_ext _ f (fun _ => 0)) by exact H. unfold rsum. induction l as [|x l IH]; cbn; [reflexivity|]. rewrite IH; [ring|]. intros; apply H; right; assumption. Qed.
Lemma rsum_perm : forall X (f : X -> R) l l', Permutation l l' -> rsum f l = rsum f l'.
Proof. intros X f l l' P. unfold rsum. induction P; cbn; lra. Qed.
Lemma rsum_map : forall X Y (f : Y -> R) (g : X -> Y) l, rsum f (map g l) = rsum (fun x => f (g x)) l.
Proof. intros. unfold rsum. induction l as [|x l IH]; cbn; [reflexivity|]. rewrite IH. reflexivity. Qed.
Lemma rsum_flat : forall X Y (f : Y -> R) (g : X -> list Y) l, rsum f (flat_map g l) = rsum (fun x => rsum f (g x)) l.
Proof. intros. induction l as [|x l IH]; [reflexivity|]. cbn [flat_map]. rewrite rsum_app, IH. reflexivity. Qed.
Lemma rsum_pos : forall X (f : X -> R) l, l <> [] -> (forall x, In x l -> 0 < f x) -> 0 < rsum f l.
Proof.
  intros X f l Hn H. assert (G : forall l, (forall x, In x l -> 0 < f x) -> 0 <= rsum f l).
  { clear. intros l H. unfold rsum. induction l as [|x l IH]; cbn; [lra|]. assert (0 < f x) by (apply H; left; reflexivity).
    assert (0 <= fold_right (fun x s => f x + s) 0 l) by (apply IH; intros; apply H; right; assumption). lra. }
  destruct l as [|x l]; [congruence|]. change (rsum f (x :: l)) with (f x + rsum f l).
  assert (0 < f x) by (apply H; left; reflexivity). assert (0 <= rsum f l) by (apply G; intros; apply H; right; assumption). lra.
Qed.

Section Block.
Variable ent : nat -> nat -> option R.
Variables il jl : list nat.
Notation nR := (length il).
Notation nC := (length jl).

(** ** Proper assignments and their scores *)
Lemma live_spec : forall a i, g_live ent il jl i a = true <-> forall r c, nth_error a r = Some c -> g_ext ent il jl (i + r) c <> None.
Proof.
  induction a as [|c a IH]; intros i; cbn [g_live].
  - split; [|reflexivity]. intros _ [|r] c E; discriminate.
  - destruct (g_ext ent il jl i c) as [x|] eqn:E.
    + rewrite IH. split.
      * intros H [|r] c' E'; cbn in E'; [injection E' as <-; rewrite Nat.add_0_r; congruence|]. rewrite Nat.add_succ_r. apply H. exact E'.
      * intros H r c' E'. specialize (H (S r) c' E'). rewrite Nat.add_succ_r in H. exact H.
    + split; [discriminate|]. intros H. specialize (H 0%nat c eq_refl). rewrite Nat.add_0_r in H. congruence.
Qed.

Lemma in_pairs : forall a m n, In (m, n) (pairs il jl a) <->
  exists r c, nth_error il r = Some m /\ nth_error a r = Some c /\ (c < nC)%nat /\ n = nth c jl 0%nat.
Proof.
  intros a m n. unfold pairs. rewrite in_flat_map. split.
  - intros ([x c] & H & E). apply In_nth_error in H. destruct H as (r & H). cbn [fst snd] in E.
    assert (K : nth_error il r = Some x /\ nth_error a r = Some c).
    { clear - H. revert a r H. generalize il as q. clear. induction q as [|y q IH]; intros [|z a] [|r] H; cbn in *; try discriminate; [injection H as -> ->; auto|]. apply IH. exact H. }
    destruct (Nat.ltb_spec c nC); [|destruct E]. destruct E as [E|[]]. injection E as <- <-. exists r, c. tauto.
  - intros (r & c & H1 & H2 & H3 & ->). exists (m, c). split.
    + apply nth_error_In with (n := r). clear - H1 H2. revert a r H1 H2. generalize il as q. clear.
      induction q as [|y q IH]; intros [|z a] [|r] H1 H2; cbn in *; try discriminate; [congruence|]. apply IH; assumption.
    + cbn [fst snd]. destruct (Nat.ltb_spec c nC); [left; reflexivity|lia].
Qed.

Lemma proper_live : forall a, length a = (nR + nC)%nat -> (proper ent il jl a <-> g_live ent il jl 0 a = true).
Proof.
  intros a La. rewrite live_spec. cbn [Nat.add]. split.
  - intros (_ & P1 & P2 & P3) r c E. unfold g_ext. destruct (Nat.ltb_spec r nR) as [Hr|Hr]; destruct (Nat.ltb_spec c nC) as [Hc|Hc].
    + apply P3. apply in_pairs. exists r, c. split; [|auto]. rewrite (nth_error_nth' _ 0%nat) by exact Hr. reflexivity.
    + rewrite (P1 r c E Hr Hc). replace (nC + r - nC)%nat with r by lia. rewrite Nat.eqb_refl. discriminate.
    + rewrite (P2 r c E Hr Hc). replace (nR + c - nR)%nat with c by lia. rewrite Nat.eqb_refl. discriminate.
    + discriminate.
  - intros H. split; [exact La|]. split; [|split].
    + intros r c E Hr Hc. specialize (H r c E). unfold g_ext in H. destruct (Nat.ltb_spec r nR); [|lia]. destruct (Nat.ltb_spec c nC); [lia|].
      destruct (Nat.eqb_spec r (c - nC)); [lia|congruence].
    + intros r c E Hr Hc. specialize (H r c E). unfold g_ext in H. destruct (Nat.ltb_spec r nR); [lia|]. destruct (Nat.ltb_spec c nC); [|lia].
      destruct (Nat.eqb_spec (r - nR) c); [lia|congruence].
    + intros m n Hin. apply in_pairs in Hin. destruct Hin as (r & c & H1 & H2 & H3 & ->). specialize (H r c H2). unfold g_ext in H.
      assert (r < nR)%nat by (apply nth_error_Some; congruence). destruct (Nat.ltb_spec r nR); [|lia]. destruct (Nat.ltb_spec c nC); [|lia].
      rewrite (nth_error_nth _ _ 0%nat H1) in H. exact H.
Qed.

(** Sum over the rows. *)
Definition row_sum (f : nat -> nat -> R) (a : list nat) : R :=
  rsum (fun r => if (nth r a 0%nat <? nC)%nat then f (nth r il 0%nat) (nth (nth r a 0%nat) jl 0%nat) else 0) (seq 0 nR).

Lemma pairs_rows : forall (f : nat -> nat -> R) a, (nR <= length a)%nat -> rsum (fun p => f (fst p) (snd p)) (pairs il jl a) = row_sum f a.
Proof.
  intros f a La. unfold pairs, row_sum. rewrite rsum_flat.
  assert (E : combine il a = map (fun r => (nth r il 0%nat, nth r a 0%nat)) (seq 0 nR)).
  { clear - La. revert a La. generalize il as q. clear. induction q as [|x q IH]; intros [|c a] La; cbn [length] in *; try reflexivity; [lia|].
    cbn [combine seq map]. f_equal. rewrite IH by lia. rewrite <- seq_shift, map_map. apply map_ext. reflexivity. }
  rewrite E, rsum_map. apply rsum_ext. intros r _. cbn [fst snd]. destruct (Nat.ltb (nth r a 0%nat) nC); cbn; ring.
Qed.

Lemma score_live : forall a, length a = (nR + nC)%nat -> g_live ent il jl 0 a = true -> g_score ent il jl 0 a = score ent il jl a.
Proof.
  intros a La Hl. unfold score. rewrite (pairs_rows (fun m n => match ent m n with Some x => x | None => 0 end)) by lia. unfold row_sum.
  assert (G : forall b i, g_live ent il jl i b = true -> g_score ent il jl i b = rsum (fun r => match g_ext ent il jl (i + r) (nth r b 0%nat) with Some x => x | None => 0 end) (seq 0 (length b))).
  { clear. induction b as [|c b IH]; intros i H; [reflexivity|]. cbn [g_live g_score length] in *.
    destruct (g_ext ent il jl i c) as [x|] eqn:E; [|discriminate]. rewrite (IH (S i) H). cbn [seq].
    rewrite <- seq_shift. change (rsum ?f (0%nat :: ?l)) with (f 0%nat + rsum f l). rewrite rsum_map. cbn beta. rewrite Nat.add_0_r. cbn [nth]. rewrite E. cbn [entry]. f_equal.
    apply rsum_ext. intros r _. rewrite Nat.add_succ_r. reflexivity. }
  rewrite (G a 0%nat Hl), La. rewrite seq_app, rsum_app. rewrite (rsum_zero _ _ (seq (0 + nR) nC)), Rplus_0_r.
  - apply rsum_ext. intros r Hr. apply in_seq in Hr. unfold g_ext. cbn [Nat.add]. destruct (Nat.ltb_spec r nR); [|lia].
    destruct (Nat.ltb_spec (nth r a 0%nat) nC); [reflexivity|]. destruct (r =? _)%nat; reflexivity.
  - intros r Hr. apply in_seq in Hr. unfold g_ext. cbn [Nat.add]. destruct (Nat.ltb_spec r nR); [lia|].
    destruct (Nat.ltb (nth r a 0%nat) nC); [destruct (_ =? _)%nat|]; reflexivity.
Qed.

(** ** Gradients *)
Variable lm ps : nat -> nat -> option vec.
Variable L S : nat -> nat -> vec.
Hypothesis Hlm : forall m n, In m il -> In n jl -> lm m n = Some (L m n).
Hypothesis Hps : forall m n, In m il -> In n jl -> ps m n = Some (S m n).

Definition val_at (T : nat -> nat -> vec) (r c : nat) : vec :=
  if (c <? nC)%nat then T (nth r il 0%nat) (nth c jl 0%nat) else fun _ => 0.

Lemma g_at_lm : forall r c, (r < nR)%nat -> g_at il jl lm r c = Val (val_at L r c).
Proof. intros r c Hr. unfold g_at, val_at. destruct (Nat.ltb_spec c nC); [|reflexivity]. rewrite Hlm by (apply nth_In; assumption). reflexivity. Qed.
Lemma g_at_ps : forall r c, (r < nR)%nat -> g_at il jl ps r c = Val (val_at S r c).
Proof. intros r c Hr. unfold g_at, val_at. destruct (Nat.ltb_spec c nC); [|reflexivity]. rewrite Hps by (apply nth_In; assumption). reflexivity. Qed.

(** Contribution of the rows before n to landmark m. *)
Definition lsum (n : nat) (a : list nat) (m d : nat) : R :=
  rsum (fun r => if (nth r il 0%nat =? m)%nat then val_at L r (nth r a 0%nat) d else 0) (seq 0 n).
Definition psum (n : nat) (a : list nat) (d : nat) : R := rsum (fun r => val_at S r (nth r a 0%nat) d) (seq 0 n).

Lemma rows_inv : forall (I : nat -> g_state -> Prop) f s n, I 0%nat s ->
  (forall k t, (k < n)%nat -> I k t -> exists t', f t k = Val t' /\ I (Datatypes.S k) t') -> exists s', rows f s n = Val s' /\ I n s'.
Proof.
  intros I f s n H0 Hs. unfold rows. induction n as [|n IH].
  - exists s. split; [reflexivity|exact H0].
  - destruct IH as (t & E & Ht). { intros k t Hk. apply Hs. lia. }
    rewrite seq_S, fold_left_app, E. cbn [fold_left Nat.add obind]. apply Hs; [lia|exact Ht].
Qed.

Lemma rows_diff : forall a first w s, exists s', rows (row_diff lm ps il jl a first w) s nR = Val s' /\
  (forall m d, fst s' m d = fst s m d + w * (lsum nR a m d - lsum nR first m d)) /\
  (forall d, snd s' d = snd s d + w * (psum nR a d - psum nR first d)).
Proof.
  intros a first w s.
  apply (rows_inv (fun k t => (forall m d, fst t m d = fst s m d + w * (lsum k a m d - lsum k first m d)) /\
    (forall d, snd t d = snd s d + w * (psum k a d - psum k first d)))).
  - unfold lsum, psum. cbn. split; intros; ring.
  - intros k t Hk (I1 & I2). unfold row_diff.
    assert (Sl : forall b m d, lsum (Datatypes.S k) b m d = lsum k b m d + (if (nth k il 0%nat =? m)%nat then val_at L k (nth k b 0%nat) d else 0)).
    { intros. unfold lsum. rewrite seq_S, rsum_app. cbn [Nat.add rsum fold_right]. ring. }
    assert (Sp : forall b d, psum (Datatypes.S k) b d = psum k b d + val_at S k (nth k b 0%nat) d).
    { intros. unfold psum. rewrite seq_S, rsum_app. cbn [Nat.add rsum fold_right]. ring. }
    destruct (Nat.eqb_spec (nth k a 0%nat) (nth k first 0%nat)) as [E|E].
    + exists t. split; [reflexivity|]. split; intros.
      * rewrite I1, !Sl, E. ring.
      * rewrite I2, !Sp, E. ring.
    + rewrite !g_at_lm, !g_at_ps by exact Hk. cbn [obind]. eexists. split; [reflexivity|]. cbn [fst snd]. split; intros.
      * unfold add_at. rewrite !Sl. rewrite (Nat.eqb_sym (nth k il 0%nat) m). destruct (m =? nth k il 0%nat)%nat; rewrite I1; ring.
      * rewrite I2, !Sp. ring.
Qed.

Lemma rows_first : forall first s, exists s', rows (row_first lm ps il jl first) s nR = Val s' /\
  (forall m d, fst s' m d = fst s m d + lsum nR first m d) /\ (forall d, snd s' d = snd s d + psum nR first d).
Proof.
  intros first s.
  apply (rows_inv (fun k t => (forall m d, fst t m d = fst s m d + lsum k first m d) /\ (forall d, snd t d = snd s d + psum k first d))).
  - unfold lsum, psum. cbn. split; intros; ring.
  - intros k t Hk (I1 & I2). unfold row_first.
    assert (Sl : forall b m d, lsum (Datatypes.S k) b m d = lsum k b m d + (if (nth k il 0%nat =? m)%nat then val_at L k (nth k b 0%nat) d else 0)).
    { intros. unfold lsum. rewrite seq_S, rsum_app. cbn [Nat.add rsum fold_right]. ring. }
    assert (Sp : forall b d, psum (Datatypes.S k) b d = psum k b d + val_at S k (nth k b 0%nat) d).
    { intros. unfold psum. rewrite seq_S, rsum_app. cbn [Nat.add rsum fold_right]. ring. }
    destruct (Nat.ltb_spec (nth k first 0%nat) nC) as [Hc|Hc].
    + rewrite g_at_lm, g_at_ps by exact Hk. cbn [obind]. eexists. split; [reflexivity|]. cbn [fst snd]. split; intros.
      * unfold add_at. rewrite Sl. rewrite (Nat.eqb_sym (nth k il 0%nat) m). destruct (m =? nth k il 0%nat)%nat; rewrite I1; ring.
      * rewrite I2, Sp. ring.
    + exists t. split; [reflexivity|]. split; intros.
      * rewrite I1, Sl. unfold val_at. destruct (Nat.ltb_spec (nth k first 0%nat) nC); [lia|]. destruct (_ =? _)%nat; ring.
      * rewrite I2, Sp. unfold val_at. destruct (Nat.ltb_spec (nth k first 0%nat) nC); [lia|]. ring.
Qed.

Lemma norm_spec : forall corr g m d, NoDup il -> norm_rows il corr g m d = if in_dec Nat.eq_dec m il then g m d / corr else g m d.
Proof.
  intros corr g m d ND. unfold norm_rows.
  assert (G : forall n, (n <= nR)%nat -> fold_left (fun g r => fun m' => if (m' =? nth r il 0%nat)%nat then fun d => g m' d / corr else g m') (seq 0 n) g m d =
    if in_dec Nat.eq_dec m (firstn n il) then g m d / corr else g m d).
  { induction n as [|n IH]; intros Hn; [reflexivity|]. rewrite seq_S, fold_left_app. cbn [fold_left Nat.add].
    destruct (nth_error il n) as [x|] eqn:Ex; [|apply nth_error_None in Ex; lia].
    assert (Ef : firstn (Datatypes.S n) il = firstn n il ++ [x]).
    { clear - Ex. revert n Ex. generalize il as q. clear. induction q as [|y q IH]; intros [|n] E; cbn in *; try discriminate; [congruence|]. f_equal. auto. }
    rewrite (nth_error_nth _ _ 0%nat Ex). destruct (Nat.eqb_spec m x) as [->|N].
    - rewrite IH by lia. destruct (in_dec Nat.eq_dec x (firstn n il)) as [H|H].
      + exfalso. rewrite <- (firstn_skipn (Datatypes.S n) il), Ef in ND. apply NoDup_remove_1 with (l := firstn n il ++ []) in ND || idtac.
        rewrite <- app_assoc in ND. apply NoDup_remove_2 in ND. apply ND. apply in_or_app. left. exact H.
      + destruct (in_dec Nat.eq_dec x (firstn (Datatypes.S n) il)) as [_|H']; [reflexivity|]. exfalso. apply H'. rewrite Ef. apply in_or_app. right. left. reflexivity.
    - rewrite IH by lia. destruct (in_dec Nat.eq_dec m (firstn n il)) as [H|H]; destruct (in_dec Nat.eq_dec m (firstn (Datatypes.S n) il)) as [H'|H']; try reflexivity.
      + exfalso. apply H'. rewrite Ef. apply in_or_app. left. exact H.
      + exfalso. rewrite Ef in H'. apply in_app_or in H'. destruct H' as [H'|[H'|[]]]; congruence. }
  rewrite G by lia. rewrite firstn_all. reflexivity.
Qed.

(** The further assignments. *)
Lemma others_spec : forall first outs k corr s, (length outs <= k)%nat ->
  StronglySorted (fun a b => g_score ent il jl 0 b <= g_score ent il jl 0 a) outs ->
  (forall a, In a outs -> g_live ent il jl 0 a = true -> BIG_NEG < g_score ent il jl 0 a) ->
  exists s', others ent lm ps il jl k first outs corr s = Val (corr + rsum (fun a => g_weight ent il jl a first) outs, s') /\
  (forall m d, fst s' m d = fst s m d + rsum (fun a => g_weight ent il jl a first * (lsum nR a m d - lsum nR first m d)) outs) /\
  (forall d, snd s' d = snd s d + rsum (fun a => g_weight ent il jl a first * (psum nR a d - psum nR first d)) outs).
Proof.
  intros first. induction outs as [|a outs IH]; intros k corr s Hk HS HL.
  - exists s. split; [|split; intros; cbn; ring]. destruct k; cbn [others rsum fold_right]; rewrite Rplus_0_r; reflexivity.
  - destruct k as [|k]; [cbn in Hk; lia|]. cbn [others]. apply StronglySorted_inv in HS. destruct HS as (HS & HF).
    destruct (Rlt_dec (g_score ent il jl 0 a) BIG_NEG) as [B|B].
    + assert (Z : forall x, In x (a :: outs) -> g_weight ent il jl x first = 0).
      { intros x Hx. unfold g_weight. destruct (g_live ent il jl 0 x) eqn:E; [|reflexivity]. exfalso.
        pose proof (HL x Hx E) as K. destruct Hx as [<-|Hx]; [lra|]. eapply Forall_forall in HF; [|exact Hx]. lra. }
      exists s. split; [|split].
      * rewrite (rsum_zero _ _ (a :: outs)) by exact Z. rewrite Rplus_0_r. reflexivity.
      * intros. rewrite (rsum_zero _ _ (a :: outs)) by (intros x Hx; rewrite (Z x Hx); ring). ring.
      * intros. rewrite (rsum_zero _ _ (a :: outs)) by (intros x Hx; rewrite (Z x Hx); ring). ring.
    + destruct (rows_diff a first (g_weight ent il jl a first) s) as (s1 & E1 & F1 & F2). rewrite E1. cbn [obind].
      destruct (IH k (corr + g_weight ent il jl a first) s1) as (s2 & E2 & G1 & G2); [cbn in Hk; lia|exact HS|intros; apply HL; [right|]; assumption|].
      exists s2. change (rsum ?f (a :: outs)) with (f a + rsum f outs). split; [|split].
      * rewrite E2. rewrite Rplus_assoc. reflexivity.
      * intros. rewrite G1, F1. ring.
      * intros. rewrite G2, F2. ring.
Qed.

(** Value and gradients of a block. *)
Theorem block_exact : forall outs H lg pg, ranked ent il jl outs H -> NoDup il ->
  (forall m d, In m il -> lg m d = 0) ->
  exists lg' pg' first, In first H /\ (forall a, In a H -> score ent il jl a <= score ent il jl first) /\
  g_block ent lm ps il jl outs lg pg = Val (log_sum ent il jl H, lg', pg') /\
  (forall m d, ~ In m il -> lg' m d = lg m d) /\
  (forall m d, In m il -> lg' m d = rsum (fun a => exp (score ent il jl a) * lm_sum L m (pairs il jl a) d) H / rsum (fun a => exp (score ent il jl a)) H) /\
  (forall d, pg' d = pg d + ps_sum S (pairs il jl first) d +
     rsum (fun a => exp (score ent il jl a - score ent il jl first) * (ps_sum S (pairs il jl a) d - ps_sum S (pairs il jl first) d)) H).
Proof.
  intros outs H lg pg (Hlen & HLen & HS & (first & rest & -> & Hp) & (dead & HP & HH & HD) & Hsc) ND Hlg.
  assert (Lf : forall a, In a (first :: rest) -> length a = (nR + nC)%nat) by (intros a Ha; eapply Forall_forall in HLen; eauto).
  assert (LH : forall a, In a H -> In a (first :: rest)) by (intros a Ha; eapply Permutation_in; [symmetry; exact HP|apply in_or_app; left; exact Ha]).
  assert (LD : forall a, In a dead -> In a (first :: rest)) by (intros a Ha; eapply Permutation_in; [symmetry; exact HP|apply in_or_app; right; exact Ha]).
  assert (HlH : forall a, In a H -> g_live ent il jl 0 a = true) by (intros a Ha; apply proper_live; [apply Lf, LH, Ha|eapply Forall_forall in HH; eauto]).
  assert (HlD : forall a, In a dead -> g_live ent il jl 0 a = false).
  { intros a Ha. destruct (g_live ent il jl 0 a) eqn:E; [|reflexivity]. exfalso. eapply Forall_forall in HD; [|exact Ha]. apply HD, proper_live; [apply Lf, LD, Ha|exact E]. }
  assert (Hfl : g_live ent il jl 0 first = true) by (apply proper_live; [apply Lf; left; reflexivity|exact Hp]).
  assert (HfH : In first H).
  { assert (K : In first (H ++ dead)) by (eapply Permutation_in; [exact HP|left; reflexivity]). apply in_app_or in K. destruct K as [K|K]; [exact K|]. rewrite (HlD _ K) in Hfl. discriminate. }
  assert (Sc : forall a, In a H -> g_score ent il jl 0 a = score ent il jl a) by (intros a Ha; apply score_live; [apply Lf, LH, Ha|apply HlH, Ha]).
  apply StronglySorted_inv in HS. destruct HS as (HS & HF).
  assert (Hmax : forall a, In a H -> score ent il jl a <= score ent il jl first).
  { intros a Ha. rewrite <- !Sc by assumption. destruct (LH a Ha) as [<-|Hr]; [lra|]. eapply Forall_forall in HF; [|exact Hr]. exact HF. }
  assert (Wf : g_weight ent il jl first first = 1) by (unfold g_weight; rewrite Hfl, Rminus_diag_eq, exp_0; reflexivity).
  assert (HW : forall F : list nat -> R, rsum (fun a => g_weight ent il jl a first * F a) (first :: rest) =
      rsum (fun a => exp (score ent il jl a - score ent il jl first) * F a) H).
  { intros F. rewrite (rsum_perm _ _ _ _ HP), rsum_app. rewrite (rsum_zero _ _ dead), Rplus_0_r.
    - apply rsum_ext. intros a Ha. unfold g_weight. rewrite HlH, !Sc by assumption. reflexivity.
    - intros a Ha. unfold g_weight. rewrite HlD by exact Ha. ring. }
  assert (HW1 : rsum (fun a => g_weight ent il jl a first) (first :: rest) = rsum (fun a => exp (score ent il jl a - score ent il jl first)) H).
  { transitivity (rsum (fun a => g_weight ent il jl a first * 1) (first :: rest)); [apply rsum_ext; intros; ring|]. rewrite HW. apply rsum_ext. intros; ring. }
  set (Z := rsum (fun a => exp (score ent il jl a)) H).
  assert (Zp : 0 < Z) by (apply rsum_pos; [destruct H; [destruct HfH|discriminate]|intros; apply exp_pos]).
  assert (HZ : rsum (fun a => exp (score ent il jl a - score ent il jl first)) H = Z * exp (- score ent il jl first)).
  { unfold Z. rewrite <- rsum_scale_r. apply rsum_ext. intros a _. unfold Rminus. apply exp_plus. }
  cbv beta iota delta [g_block].
  match goal with |- context [others _ _ _ _ _ ?k _ _ _ ?s0] =>
    destruct (others_spec first rest k 1 s0) as (s & Eo & O1 & O2); [cbn in Hlen; lia|exact HS| |] end.
  { intros a Ha Hl. unfold BIG_NEG. assert (Hin : In a H).
    { assert (K : In a (H ++ dead)) by (eapply Permutation_in; [exact HP|right; exact Ha]). apply in_app_or in K. destruct K as [K|K]; [exact K|]. rewrite (HlD _ K) in Hl. discriminate. }
    rewrite Sc by exact Hin. apply Hsc. exact Hin. }
  set (corr := 1 + rsum (fun a => g_weight ent il jl a first) rest) in *.
  assert (Hc : corr = Z * exp (- score ent il jl first)).
  { rewrite <- HZ, <- HW1. change (rsum ?f (first :: rest)) with (f first + rsum f rest). cbn beta. rewrite Wf. reflexivity. }
  pose proof (exp_pos (- score ent il jl first)) as Ep.
  assert (Cp : 0 < corr) by (rewrite Hc; apply Rmult_lt_0_compat; assumption).
  destruct (rows_first first (norm_rows il corr (fst s), snd s)) as (s2 & E2 & R1 & R2).
  rewrite Eo. cbn [obind]. destruct (Rlt_dec BIG_NEG (g_score ent il jl 0 first)) as [B|B].
  2:{ exfalso. apply B. rewrite Sc by exact HfH. apply Hsc. exact HfH. }
  rewrite E2. cbn [obind].
  assert (Lp : forall a m d, In a (first :: rest) -> lsum nR a m d = lm_sum L m (pairs il jl a) d).
  { intros a m d Ha. unfold lm_sum. rewrite (pairs_rows (fun x y => if (x =? m)%nat then L x y d else 0)) by (rewrite (Lf a Ha); lia).
    unfold lsum, row_sum. apply rsum_ext. intros r _. unfold val_at. destruct (_ <? _)%nat; destruct (_ =? m)%nat; reflexivity. }
  assert (Pp : forall a d, In a (first :: rest) -> psum nR a d = ps_sum S (pairs il jl a) d).
  { intros a d Ha. unfold ps_sum. rewrite (pairs_rows (fun x y => S x y d)) by (rewrite (Lf a Ha); lia).
    unfold psum, row_sum. apply rsum_ext. intros r _. unfold val_at. destruct (_ <? _)%nat; reflexivity. }
  eexists. eexists. exists first. split; [exact HfH|]. split; [exact Hmax|]. split; [|split; [|split]].
  - rewrite Sc by exact HfH. match goal with |- Val (?x, _, _) = _ => replace x with (log_sum ent il jl H) end; [reflexivity|]. unfold log_sum. fold Z. rewrite Hc, ln_mult by assumption. rewrite ln_exp. ring.
  - intros m d Hm. rewrite R1. cbn [fst]. rewrite norm_spec by exact ND. destruct (in_dec Nat.eq_dec m il); [contradiction|].
    rewrite O1. cbn [fst].
    assert (Z0 : forall b, lsum nR b m d = 0).
    { intros b. unfold lsum. apply rsum_zero. intros r Hr. apply in_seq in Hr. destruct (Nat.eqb_spec (nth r il 0%nat) m) as [E|E]; [|reflexivity].
      exfalso. apply Hm. rewrite <- E. apply nth_In. lia. }
    rewrite (rsum_zero _ _ rest) by (intros; rewrite !Z0; ring). rewrite Z0. ring.
  - intros m d Hm. rewrite R1. cbn [fst]. rewrite norm_spec by exact ND. destruct (in_dec Nat.eq_dec m il); [|contradiction].
    rewrite O1. cbn [fst]. rewrite Hlg by exact Hm. rewrite Rplus_0_l.
    assert (K : rsum (fun a => g_weight ent il jl a first * (lsum nR a m d - lsum nR first m d)) rest =
      rsum (fun a => g_weight ent il jl a first * lsum nR a m d) (first :: rest) - lsum nR first m d * corr).
    { unfold corr. change (rsum (fun a => g_weight ent il jl a first * lsum nR a m d) (first :: rest)) with
        (g_weight ent il jl first first * lsum nR first m d + rsum (fun a => g_weight ent il jl a first * lsum nR a m d) rest). rewrite Wf.
      rewrite Rmult_plus_distr_l, Rmult_1_r.
      rewrite <- rsum_scale. rewrite (rsum_ext _ _ (fun a => g_weight ent il jl a first * lsum nR a m d - lsum nR first m d * g_weight ent il jl a first)) by (intros; ring).
      rewrite rsum_minus. ring. }
    rewrite K, HW. rewrite Hc.
    rewrite (rsum_ext _ (fun a => exp (score ent il jl a - score ent il jl first) * lsum nR a m d)
       (fun a => exp (score ent il jl a) * lm_sum L m (pairs il jl a) d * exp (- score ent il jl first)) H).
    2:{ intros a Ha. unfold Rminus. rewrite exp_plus, Lp by (apply LH, Ha). ring. }
    rewrite rsum_scale_r. field. split; lra.
  - intros d. cbv beta. rewrite R2. cbn [snd]. rewrite O2. cbn [snd].
    assert (K : rsum (fun a => g_weight ent il jl a first * (psum nR a d - psum nR first d)) rest =
      rsum (fun a => g_weight ent il jl a first * (psum nR a d - psum nR first d)) (first :: rest)).
    { change (rsum ?f (first :: rest)) with (f first + rsum f rest). cbn beta. ring. }
    rewrite K, HW. rewrite (Pp first d) by (left; reflexivity).
    rewrite (rsum_ext _ (fun a => exp (score ent il jl a - score ent il jl first) * (psum nR a d - ps_sum S (pairs il jl first) d))
       (fun a => exp (score ent il jl a - score ent il jl first) * (ps_sum S (pairs il jl a) d - ps_sum S (pairs il jl first) d)) H).
    2:{ intros a Ha. rewrite Pp by (apply LH, Ha). reflexivity. }
    ring.
Qed.
End Block.
