(** The log-likelihood of a scan and its gradients. *)
From Coq Require Import Reals ZArith List Bool Arith Lia Lra Permutation Sorted.
From Coquelicot Require Import Coquelicot.
From Verif Require Import Base ListUtil SensorModel SensorDeriv OdometryModel OdometryProofs2 CeresGradModel CeresGradSpec CeresGradProofs.
Import ListNotations.
Local Open Scope R_scope.

(** ** Values *)
Definition blk_val (ent : nat -> nat -> option R) (bH : (list nat * list nat * bool) * list (list nat)) : R :=
  if b_flag (fst bH) then log_sum ent (b_rows (fst bH)) (b_cols (fst bH)) (snd bH) else 0.
Definition blk_lm (ent : nat -> nat -> option R) (L : nat -> nat -> vec) (m d : nat) (bH : (list nat * list nat * bool) * list (list nat)) : R :=
  let il := b_rows (fst bH) in let jl := b_cols (fst bH) in
  if b_flag (fst bH) then rsum (fun a => exp (score ent il jl a) * lm_sum L m (pairs il jl a) d) (snd bH) / rsum (fun a => exp (score ent il jl a)) (snd bH) else 0.
Definition blk_ps (ent : nat -> nat -> option R) (S : nat -> nat -> vec) (d : nat) (bHf : (list nat * list nat * bool) * list (list nat) * list nat) : R :=
  let il := b_rows (fst (fst bHf)) in let jl := b_cols (fst (fst bHf)) in let f := snd bHf in
  if b_flag (fst (fst bHf)) then ps_sum S (pairs il jl f) d +
    rsum (fun a => exp (score ent il jl a - score ent il jl f) * (ps_sum S (pairs il jl a) d - ps_sum S (pairs il jl f) d)) (snd (fst bHf)) else 0.

Lemma fold_plus : forall X (f : X -> R) l s, fold_left Rplus (map f l) s = s + rsum f l.
Proof. intros X f. induction l as [|x l IH]; intros s; cbn; [ring|]. rewrite IH. unfold rsum. ring. Qed.

Lemma lm_sum_out : forall L m d il jl a, ~ In m il -> lm_sum L m (pairs il jl a) d = 0.
Proof.
  intros L m d il jl a H. unfold lm_sum. apply rsum_zero. intros [x n] Hx. cbn [fst snd]. destruct (Nat.eqb_spec x m) as [->|]; [|reflexivity].
  exfalso. apply H. apply (in_pairs (fun _ _ => None)) in Hx. destruct Hx as (r & c & E & _). eapply nth_error_In. exact E.
Qed.

Lemma NoDup_l : forall X (l l' : list X), NoDup (l ++ l') -> NoDup l.
Proof. intros X l l' H. induction l as [|x l IH]; [constructor|]. cbn in H. inversion H; subst. constructor; [intros K; apply H2, in_or_app; left; exact K|auto]. Qed.
Lemma NoDup_r : forall X (l l' : list X), NoDup (l ++ l') -> NoDup l'.
Proof. intros X l l' H. induction l as [|x l IH]; [exact H|]. cbn in H. inversion H; subst. auto. Qed.

Section Scan.
Variable lik : nat -> nat -> R.
Variable lmg psg : nat -> nat -> vec.
Variable pd : nat -> R.
Variable clu : nat -> R.
Variable da : nat -> Z.
Variable thr : R.
Variable fv : list nat.
Notation ent := (g_entry lik pd clu da thr fv).
Notation LL := (fun m n => lmg (nth m fv 0%nat) n).
Notation SS := (fun m n => psg (nth m fv 0%nat) n).

Definition bases (bl : list (list nat * list nat * bool)) : R := rsum (fun b => g_base pd clu da fv (b_rows b) (b_cols b)) bl.

Lemma not_barred : forall m n, da n = (-1)%Z \/ da n = Z.of_nat m -> barred da m n = false.
Proof. intros m n [H|H]; unfold barred; rewrite H; [rewrite Z.eqb_refl, andb_false_r; reflexivity|rewrite Z.eqb_refl; reflexivity]. Qed.

Lemma blocks_exact : forall bl kb Hs l lg pg, all_ranked ent bl kb Hs -> NoDup (flat_map b_rows bl) -> free da bl ->
  (forall m d, In m (flat_map b_rows bl) -> lg m d = 0) ->
  exists lg' pg', g_blocks lik lmg psg pd clu da thr fv bl kb l lg pg = Val (l + bases bl + rsum (blk_val ent) (combine bl Hs), lg', pg') /\
  (forall m d, lg' m d = lg m d + rsum (blk_lm ent LL m d) (combine bl Hs)) /\
  exists Fs, best_of ent bl Hs Fs /\ forall d, pg' d = pg d + rsum (blk_ps ent SS d) (combine (combine bl Hs) Fs).
Proof.
  induction bl as [|b bl IH]; intros kb Hs l lg pg (HK & HH & HR) ND HF Hlg.
  - exists lg, pg. cbn [g_blocks]. unfold bases. cbn [combine rsum fold_right]. split; [|split; [intros; ring|]]. { rewrite !Rplus_0_r. reflexivity. }
    exists []. split; [split; [reflexivity|intros [|i] b H f E; discriminate]|]. intros. cbn. ring.
  - destruct kb as [|k kb]; [discriminate|]. destruct Hs as [|H Hs]; [discriminate|]. cbn [length] in HK, HH.
    assert (Rr : all_ranked ent bl kb Hs).
    { split; [lia|]. split; [lia|]. intros i b' k' H' E1 E2 E3. apply (HR (S i)); assumption. }
    assert (Fr : free da bl) by (intros b' m n Hb; apply (HF b'); right; exact Hb).
    cbn [flat_map] in ND, Hlg. assert (NDr : NoDup (flat_map b_rows bl)) by (eapply NoDup_r; exact ND).
    assert (NDb : NoDup (b_rows b)) by (eapply NoDup_l; exact ND).
    assert (Dis : forall m, In m (b_rows b) -> ~ In m (flat_map b_rows bl)).
    { intros m H1 H2. clear - ND H1 H2. induction (b_rows b) as [|x q IHq]; [destruct H1|]. cbn in ND. inversion ND; subst.
      destruct H1 as [->|H1]; [apply H3; apply in_or_app; right; exact H2|apply IHq; assumption]. }
    cbn [combine]. change (rsum ?f ((b, H) :: ?q)) with (f (b, H) + rsum f q).
    assert (Eb : bases (b :: bl) = g_base pd clu da fv (b_rows b) (b_cols b) + bases bl) by reflexivity.
    destruct b as [[il jl] flag]. cbn [g_blocks]. destruct flag.
    + assert (R0 : ranked ent il jl k H) by (apply (HR 0%nat (il, jl, true)); reflexivity).
      assert (Hb : forall m n, In m il -> In n jl -> barred da m n = false).
      { intros m n Hm Hn. apply not_barred. apply (HF (il, jl, true)); auto. left. reflexivity. }
      destruct (block_exact ent il jl (g_lm lmg da fv) (g_ps psg da fv) LL SS) with (outs := k) (H := H) (lg := lg) (pg := pg)
        as (lg1 & pg1 & first & F1 & F2 & E & G1 & G2 & G3); auto.
      { intros m n Hm Hn. unfold g_lm. rewrite Hb by assumption. reflexivity. }
      { intros m n Hm Hn. unfold g_ps. rewrite Hb by assumption. reflexivity. }
      { intros m d Hm. apply Hlg. apply in_or_app. left. exact Hm. }
      rewrite E. cbn [obind].
      destruct (IH kb Hs (l + (g_base pd clu da fv il jl + log_sum ent il jl H)) lg1 pg1 Rr NDr Fr) as (lg2 & pg2 & E2 & G4 & Fs & (B1 & B2) & G5).
      { intros m d Hm. rewrite G1; [apply Hlg; apply in_or_app; right; exact Hm|]. intros Hi. exact (Dis m Hi Hm). }
      exists lg2, pg2. rewrite E2. split; [|split].
      * match goal with |- Val (?x, _, _) = Val (?y, _, _) => replace x with y; [reflexivity|] end. rewrite Eb. unfold blk_val at 1. cbn [fst snd b_flag b_rows b_cols]. ring.
      * intros m d. rewrite G4. unfold blk_lm at 2. cbn [fst snd b_flag b_rows b_cols]. destruct (in_dec Nat.eq_dec m il) as [Hm|Hm].
        -- rewrite G2 by exact Hm. rewrite (Hlg m d) by (apply in_or_app; left; exact Hm). ring.
        -- rewrite G1 by exact Hm. rewrite (rsum_zero _ _ H). { unfold Rdiv. ring. }
           intros a _. rewrite lm_sum_out by exact Hm. ring.
      * exists (first :: Fs). split.
        -- split; [cbn; lia|]. intros [|q] b H' f' Y1 Y2 Y3 Y4; cbn in Y1, Y2, Y3; [injection Y1 as <-; injection Y2 as <-; injection Y3 as <-; auto|apply (B2 q); assumption].
        -- intros d. cbn [combine]. change (rsum ?f (((il, jl, true), H, first) :: ?q)) with (f ((il, jl, true), H, first) + rsum f q). rewrite G5, G3.
           unfold blk_ps at 2. cbn [fst snd b_flag b_rows b_cols]. cbv zeta. ring.
    + destruct (IH kb Hs (l + g_base pd clu da fv il jl) lg pg Rr NDr Fr) as (lg2 & pg2 & E2 & G4 & Fs & (B1 & B2) & G5).
      { intros m d Hm. apply Hlg. apply in_or_app. right. exact Hm. }
      exists lg2, pg2. rewrite E2. split; [|split].
      * match goal with |- Val (?x, _, _) = Val (?y, _, _) => replace x with y; [reflexivity|] end. rewrite Eb. unfold blk_val at 1. cbn [fst snd b_flag b_rows b_cols]. ring.
      * intros m d. rewrite G4. unfold blk_lm at 2. cbn [fst snd b_flag]. ring.
      * exists ([] :: Fs). split.
        -- split; [cbn; lia|]. intros [|q] b H' f' Y1 Y2 Y3 Y4; cbn in Y1, Y2, Y3; [injection Y1 as <-; discriminate|apply (B2 q); assumption].
        -- intros d. cbn [combine]. change (rsum ?f (((il, jl, false), H, []) :: ?q)) with (f ((il, jl, false), H, []) + rsum f q). rewrite G5.
           unfold blk_ps at 2. cbn [fst snd b_flag]. ring.
Qed.
End Scan.

(** ** Derivatives *)
Lemma der_cst : forall (c x : R), is_derive (fun _ : R => c) x 0.
Proof. intros c x. apply (is_derive_const (V := R_NormedModule)). Qed.
Lemma der_rsum : forall X (f : X -> R -> R) (f' : X -> R) (x : R) l, (forall y, In y l -> is_derive (f y) x (f' y)) ->
  is_derive (fun t => rsum (fun y => f y t) l) x (rsum f' l).
Proof.
  intros X f f' x l H. induction l as [|y l IH]; [exact (der_cst 0 x)|].
  change (is_derive (fun t => f y t + rsum (fun y => f y t) l) x (f' y + rsum f' l)).
  apply der_plus; [apply H; left; reflexivity|apply IH; intros; apply H; right; assumption].
Qed.

Lemma der_log_sum : forall (ent : R -> nat -> nat -> option R) (e' : nat -> nat -> R) il jl H, H <> [] ->
  (forall a m n, In a H -> In (m, n) (pairs il jl a) -> is_derive (fun t => match ent t m n with Some x => x | None => 0 end) 0 (e' m n)) ->
  is_derive (fun t => log_sum (ent t) il jl H) 0
    (rsum (fun a => exp (score (ent 0) il jl a) * rsum (fun p => e' (fst p) (snd p)) (pairs il jl a)) H / rsum (fun a => exp (score (ent 0) il jl a)) H).
Proof.
  intros ent e' il jl H Hn Hd. unfold log_sum.
  set (Zf := fun t => rsum (fun a => exp (score (ent t) il jl a)) H).
  assert (Zp : 0 < Zf 0) by (apply rsum_pos; [exact Hn|intros; apply exp_pos]).
  assert (D1 : is_derive Zf 0 (rsum (fun a => exp (score (ent 0) il jl a) * rsum (fun p => e' (fst p) (snd p)) (pairs il jl a)) H)).
  { unfold Zf. apply (der_rsum _ (fun a t => exp (score (ent t) il jl a))). intros a Ha. apply (der_exp (fun t => score (ent t) il jl a)).
    unfold score. apply (der_rsum _ (fun p t => match ent t (fst p) (snd p) with Some x => x | None => 0 end)). intros [m n] Hp. cbn [fst snd]. apply (Hd a); assumption. }
  evar_last; [apply (is_derive_comp ln Zf 0); [apply is_derive_ln; exact Zp|exact D1]|].
  change (@eq R (rsum (fun a => exp (score (ent 0) il jl a) * rsum (fun p => e' (fst p) (snd p)) (pairs il jl a)) H * / Zf 0)
    (rsum (fun a => exp (score (ent 0) il jl a) * rsum (fun p => e' (fst p) (snd p)) (pairs il jl a)) H / Zf 0)). reflexivity.
Qed.

Lemma dot_rsum : forall X D (f : X -> vec) l w, dot D (fun d => rsum (fun x => f x d) l) w = rsum (fun x => dot D (f x) w) l.
Proof.
  intros X D f l w. induction l as [|x l IH]; [apply dot_0|].
  change (dot D (fun d => f x d + rsum (fun x => f x d) l) w = dot D (f x) w + rsum (fun x => dot D (f x) w) l). rewrite dot_add, IH. reflexivity.
Qed.

Lemma rsum_swap : forall X Y (f : X -> Y -> R) l l', rsum (fun x => rsum (f x) l') l = rsum (fun y => rsum (fun x => f x y) l) l'.
Proof.
  intros X Y f l l'. induction l as [|x l IH].
  - symmetry. apply rsum_zero. reflexivity.
  - change (rsum (f x) l' + rsum (fun x => rsum (f x) l') l = rsum (fun y => f x y + rsum (fun x => f x y) l) l').
    rewrite rsum_plus, IH. reflexivity.
Qed.

Lemma rsum_pick : forall (f : nat -> R) m n, (m < n)%nat -> rsum (fun x => if (m =? x)%nat then f x else 0) (seq 0 n) = f m.
Proof.
  intros f m n. induction n as [|n IH]; intros H; [lia|]. rewrite seq_S, rsum_app. cbn [Nat.add rsum fold_right].
  destruct (Nat.eq_dec m n) as [->|N].
  - rewrite Nat.eqb_refl. rewrite (rsum_zero _ _ (seq 0 n)); [ring|]. intros x Hx. apply in_seq in Hx. destruct (Nat.eqb_spec n x); [lia|reflexivity].
  - rewrite IH by lia. destruct (Nat.eqb_spec m n); [lia|ring].
Qed.

Section Gradient.
Variable D : nat.
Variable lik : R -> nat -> nat -> R.
Variable lmg psg : R -> nat -> nat -> vec.
Variable pd : nat -> R.
Variable clu : nat -> R.
Variable da : nat -> Z.
Variable thr : R.
Variables M nZ : nat.
Variable integral : R.
Variable bl : list (list nat * list nat * bool).
Variable kb : R -> list (list (list nat)).
Variable Hs : list (list (list nat)).
Notation fv := (g_fov pd M).
Notation ent := (fun t => g_entry (lik t) pd clu da thr fv).

Hypothesis Hfv : fv <> [].
Hypothesis HND : NoDup (flat_map b_rows bl).
Hypothesis Hrow : forall m, In m (flat_map b_rows bl) -> (m < length fv)%nat.
Hypothesis Hfree : free da bl.
Hypothesis Hrank : locally 0 (fun t => all_ranked (ent t) bl (kb t) Hs).

Definition val (t : R) : R := bases pd clu da fv bl + rsum (blk_val (ent t)) (combine bl Hs) - integral.

Lemma scan_run : forall t, all_ranked (ent t) bl (kb t) Hs -> exists lg pg,
  g_scan (lik t) (lmg t) (psg t) pd clu da thr M nZ integral bl (kb t) = Val (val t, lg, pg) /\
  (forall m d, lg m d = rsum (blk_lm (ent t) (fun m n => lmg t (nth m fv 0%nat) n) m d) (combine bl Hs)) /\
  exists Fs, best_of (ent t) bl Hs Fs /\ forall d, pg d = rsum (blk_ps (ent t) (fun m n => psg t (nth m fv 0%nat) n) d) (combine (combine bl Hs) Fs).
Proof.
  intros t Ht. unfold g_scan. destruct (Nat.eqb_spec (length fv) 0) as [E|_]; [apply length_zero_iff_nil in E; contradiction|].
  destruct (blocks_exact (lik t) (lmg t) (psg t) pd clu da thr fv bl (kb t) Hs 0 (fun _ _ => 0) (fun _ => 0) Ht HND Hfree) as (lg & pg & E & G1 & Fs & B & G2); [reflexivity|].
  rewrite E. cbn [obind]. exists lg, pg. split; [unfold val; rewrite Rplus_0_l; reflexivity|]. split; [intros; rewrite G1; ring|]. exists Fs. split; [exact B|]. intros d. rewrite G2. ring.
Qed.

Lemma entry_der : forall e' : nat -> nat -> R, (forall j n, is_derive (fun t => lik t j n) 0 (e' j n)) ->
  is_derive val 0 (rsum (fun bH => if b_flag (fst bH) then
    let il := b_rows (fst bH) in let jl := b_cols (fst bH) in
    rsum (fun a => exp (score (ent 0) il jl a) * rsum (fun p => e' (nth (fst p) fv 0%nat) (snd p)) (pairs il jl a)) (snd bH) / rsum (fun a => exp (score (ent 0) il jl a)) (snd bH)
    else 0) (combine bl Hs)).
Proof.
  intros e' He. unfold val.
  evar_last.
  { apply der_shift. apply der_plus; [apply der_cst|].
    apply (der_rsum _ (fun bH t => blk_val (ent t) bH)). intros [b H] Hin. unfold blk_val. cbn [fst snd].
    apply In_nth_error in Hin. destruct Hin as (i & Ei).
    assert (Eb : nth_error bl i = Some b /\ nth_error Hs i = Some H).
    { clear - Ei. revert i Ei. generalize Hs. generalize bl as q. clear. induction q as [|x q IH]; intros [|y hs] [|i] E; cbn in *; try discriminate; [injection E as -> ->; auto|]. apply IH. exact E. }
    destruct Eb as (Eb & EH). instantiate (1 := fun bH => if b_flag (fst bH) then
      let il := b_rows (fst bH) in let jl := b_cols (fst bH) in
      rsum (fun a => exp (score (ent 0) il jl a) * rsum (fun p => e' (nth (fst p) fv 0%nat) (snd p)) (pairs il jl a)) (snd bH) / rsum (fun a => exp (score (ent 0) il jl a)) (snd bH)
      else 0). cbn [fst snd]. destruct (b_flag b) eqn:Ef; [|apply der_cst]. cbv zeta.
    assert (Hloc : locally 0 (fun t => ranked (ent t) (b_rows b) (b_cols b) (nth i (kb t) []) H)).
    { apply (filter_imp (fun t => all_ranked (ent t) bl (kb t) Hs)); [|exact Hrank]. intros t (K1 & K2 & K3).
      apply (K3 i); auto. apply nth_error_nth'. rewrite K1. apply nth_error_Some. congruence. }
    apply (der_log_sum ent (fun m n => e' (nth m fv 0%nat) n)).
    - apply locally_singleton in Hloc. destruct Hloc as (_ & _ & _ & (f & r & E1 & P1) & (dead & P & _ & HD) & _). intros ->. cbn in P.
      assert (In f dead) by (eapply Permutation_in; [exact P|rewrite E1; left; reflexivity]). eapply Forall_forall in HD; eauto.
    - intros a m n Ha Hp.
      apply (is_derive_ext_loc (fun t => lik t (nth m fv 0%nat) n + (ln (pd (nth m fv 0%nat)) - ln (1 - pd (nth m fv 0%nat)) - g_clutter clu da n))).
      + apply (filter_imp (fun t => ranked (ent t) (b_rows b) (b_cols b) (nth i (kb t) []) H)); [|exact Hloc].
        intros t (_ & _ & _ & _ & (dead & _ & HH & _) & _). eapply Forall_forall in HH; [|exact Ha]. destruct HH as (_ & _ & _ & P3). specialize (P3 m n Hp).
        unfold g_entry in *. destruct (barred da m n); [congruence|]. cbv zeta in *. destruct (Rlt_dec _ thr); [congruence|]. change (@eq R (lik t (nth m fv 0%nat) n + (ln (pd (nth m fv 0%nat)) - ln (1 - pd (nth m fv 0%nat)) - g_clutter clu da n)) (lik t (nth m fv 0%nat) n + ln (pd (nth m fv 0%nat)) - ln (1 - pd (nth m fv 0%nat)) - g_clutter clu da n)). ring.
      + evar_last; [apply der_plus; [apply He|apply der_cst]|].
        change (e' (nth m fv 0%nat) n + 0 = e' (nth m fv 0%nat) n). ring. }
  change (@eq R (0 + rsum (fun bH => if b_flag (fst bH) then
      let il := b_rows (fst bH) in let jl := b_cols (fst bH) in
      rsum (fun a => exp (score (ent 0) il jl a) * rsum (fun p => e' (nth (fst p) fv 0%nat) (snd p)) (pairs il jl a)) (snd bH) / rsum (fun a => exp (score (ent 0) il jl a)) (snd bH)
      else 0) (combine bl Hs)) (rsum (fun bH => if b_flag (fst bH) then
      let il := b_rows (fst bH) in let jl := b_cols (fst bH) in
      rsum (fun a => exp (score (ent 0) il jl a) * rsum (fun p => e' (nth (fst p) fv 0%nat) (snd p)) (pairs il jl a)) (snd bH) / rsum (fun a => exp (score (ent 0) il jl a)) (snd bH)
      else 0) (combine bl Hs))). ring.
Qed.

Lemma row_ok : forall b H m n a, In (b, H) (combine bl Hs) -> In (m, n) (pairs (b_rows b) (b_cols b) a) -> (m < length fv)%nat.
Proof.
  intros b H m n a Hb Hp. apply Hrow. apply in_flat_map. exists b. split; [eapply in_combine_l; exact Hb|].
  apply (in_pairs (fun _ _ => None)) in Hp. destruct Hp as (r & c & E & _). eapply nth_error_In. exact E.
Qed.

Theorem landmark_gradient : forall v : nat -> vec, (forall j n, is_derive (fun t => lik t j n) 0 (dot D (lmg 0 j n) (v j))) ->
  exists V lg pg,
    locally 0 (fun t => exists lg' pg', g_scan (lik t) (lmg t) (psg t) pd clu da thr M nZ integral bl (kb t) = Val (V t, lg', pg')) /\
    g_scan (lik 0) (lmg 0) (psg 0) pd clu da thr M nZ integral bl (kb 0) = Val (V 0, lg, pg) /\
    is_derive V 0 (rsum (fun m => dot D (lg m) (v (nth m fv 0%nat))) (seq 0 (length fv))).
Proof.
  intros v Hv. destruct (scan_run 0 (locally_singleton _ _ Hrank)) as (lg & pg & E & G1 & _). exists val, lg, pg. split; [|split; [exact E|]].
  - apply (filter_imp (fun t => all_ranked (ent t) bl (kb t) Hs)); [|exact Hrank]. intros t Ht. destruct (scan_run t Ht) as (lg' & pg' & E' & _). eauto.
  - evar_last; [apply (entry_der (fun j n => dot D (lmg 0 j n) (v j)) Hv)|].
    match goal with |- @eq _ ?l ?r => change (@eq R l r) end.
    rewrite (rsum_ext _ (fun m => dot D (lg m) (v (nth m fv 0%nat)))
      (fun m => rsum (fun bH => dot D (fun d => blk_lm (ent 0) (fun m n => lmg 0 (nth m fv 0%nat) n) m d bH) (v (nth m fv 0%nat))) (combine bl Hs))).
    2:{ intros m _. rewrite <- dot_rsum. apply dot_ext; [|reflexivity]. intros d _. apply G1. }
    rewrite rsum_swap. apply rsum_ext. intros [b H] Hb. unfold blk_lm. cbn [fst snd]. cbv zeta. destruct (b_flag b).
    2:{ symmetry. apply rsum_zero. intros m _. apply dot_0. }
    set (il := b_rows b). set (jl := b_cols b). set (Z := rsum (fun a => exp (score (ent 0) il jl a)) H).
    rewrite (rsum_ext _ (fun m => dot D (fun d => rsum (fun a => exp (score (ent 0) il jl a) * lm_sum (fun m n => lmg 0 (nth m fv 0%nat) n) m (pairs il jl a) d) H / Z) (v (nth m fv 0%nat)))
      (fun m => / Z * rsum (fun a => exp (score (ent 0) il jl a) * rsum (fun p => if (fst p =? m)%nat then dot D (lmg 0 (nth (fst p) fv 0%nat) (snd p)) (v (nth m fv 0%nat)) else 0) (pairs il jl a)) H)).
    2:{ intros m _. rewrite (dot_ext D _ (v (nth m fv 0%nat)) (fun d => / Z * rsum (fun a => exp (score (ent 0) il jl a) * lm_sum (fun m n => lmg 0 (nth m fv 0%nat) n) m (pairs il jl a) d) H) (v (nth m fv 0%nat))) by (intros; try reflexivity; unfold Rdiv; ring).
        rewrite dot_scale. f_equal. rewrite (dot_rsum _ D (fun a d => exp (score (ent 0) il jl a) * lm_sum (fun m n => lmg 0 (nth m fv 0%nat) n) m (pairs il jl a) d)).
        apply rsum_ext. intros a _. rewrite dot_scale. f_equal. unfold lm_sum. rewrite dot_rsum. apply rsum_ext. intros p _. destruct (fst p =? m)%nat; [reflexivity|apply dot_0]. }
    rewrite rsum_scale, rsum_swap. unfold Rdiv. rewrite Rmult_comm. f_equal. apply rsum_ext. intros a _. rewrite rsum_scale. f_equal.
    rewrite rsum_swap. apply rsum_ext. intros [m n] Hp. cbn [fst snd].
    rewrite (rsum_pick (fun x => dot D (lmg 0 (nth m fv 0%nat) n) (v (nth x fv 0%nat)))) by (eapply row_ok; eauto). reflexivity.
Qed.

Theorem pose_gradient : forall w : vec, (forall j n, is_derive (fun t => lik t j n) 0 (dot D (psg 0 j n) w)) ->
  exists V lg pg Fs,
    locally 0 (fun t => exists lg' pg', g_scan (lik t) (lmg t) (psg t) pd clu da thr M nZ integral bl (kb t) = Val (V t, lg', pg')) /\
    g_scan (lik 0) (lmg 0) (psg 0) pd clu da thr M nZ integral bl (kb 0) = Val (V 0, lg, pg) /\
    best_of (ent 0) bl Hs Fs /\
    is_derive V 0 (dot D pg w - rsum (fun bHf => let b := fst (fst bHf) in
      if b_flag b then excess (ent 0) (fun m n => psg 0 (nth m fv 0%nat) n) D w (b_rows b) (b_cols b) (snd (fst bHf)) (snd bHf) else 0)
      (combine (combine bl Hs) Fs)).
Proof.
  intros w Hv. assert (A0 := locally_singleton _ _ Hrank). destruct (scan_run 0 A0) as (lg & pg & E & _ & Fs & (B1 & B2) & G2). exists val, lg, pg, Fs.
  split; [|split; [exact E|split; [split; assumption|]]].
  - apply (filter_imp (fun t => all_ranked (ent t) bl (kb t) Hs)); [|exact Hrank]. intros t Ht. destruct (scan_run t Ht) as (lg' & pg' & E' & _). eauto.
  - evar_last; [apply (entry_der (fun j n => dot D (psg 0 j n) w) Hv)|].
    match goal with |- @eq _ ?l ?r => change (@eq R l r) end.
    rewrite (dot_ext D pg w (fun d => rsum (fun bH => blk_ps (ent 0) (fun m n => psg 0 (nth m fv 0%nat) n) d bH) (combine (combine bl Hs) Fs)) w) by (intros; try reflexivity; apply G2).
    rewrite dot_rsum, <- rsum_minus.
    assert (LH : length Hs = length bl) by apply A0.
    match goal with |- rsum ?F _ = _ => rewrite <- (rsum_map _ _ F (fun x : _ * list nat => fst x) (combine (combine bl Hs) Fs)) || idtac end.
    assert (Em : map (fun x : (list nat * list nat * bool) * list (list nat) * list nat => fst x) (combine (combine bl Hs) Fs) = combine bl Hs).
    { assert (Lc : length (combine bl Hs) = length Fs) by (rewrite combine_length; lia). revert Lc. generalize (combine bl Hs). generalize Fs. clear.
      induction Fs as [|f Fs IH]; intros [|x l] H; cbn in *; try lia; try reflexivity. f_equal. apply IH. lia. }
    rewrite <- Em at 1. rewrite rsum_map. apply rsum_ext. intros [[b H] f] Hin. unfold blk_ps. cbn [fst snd]. cbv zeta. destruct (b_flag b) eqn:Ef; [|rewrite dot_0; ring].
    apply In_nth_error in Hin. destruct Hin as (i & Ei).
    assert (Eb : nth_error bl i = Some b /\ nth_error Hs i = Some H /\ nth_error Fs i = Some f).
    { clear - Ei. revert i Ei. generalize Fs, Hs. generalize bl as q. clear. induction q as [|x q IH]; intros [|z fs] [|y hs] [|i] E; cbn in *; try discriminate; [injection E as -> -> ->; auto|]. apply IH. exact E. }
    destruct Eb as (Eb & EH & EF). destruct (B2 i b H f Eb EH EF Ef) as (Hf & _).
    set (il := b_rows b). set (jl := b_cols b). set (PS := ps_sum (fun m n => psg 0 (nth m fv 0%nat) n)).
    set (sf := score (ent 0) il jl f). set (Q := fun a => dot D (PS (pairs il jl a)) w).
    assert (EQ : forall a, rsum (fun p => dot D (psg 0 (nth (fst p) fv 0%nat) (snd p)) w) (pairs il jl a) = Q a).
    { intros a. unfold Q, PS. rewrite <- (dot_rsum _ D (fun p => psg 0 (nth (fst p) fv 0%nat) (snd p))). reflexivity. }
    rewrite (rsum_ext _ _ (fun a => exp (score (ent 0) il jl a) * Q a) H) by (intros a _; rewrite EQ; reflexivity).
    rewrite dot_add. fold (Q f). rewrite (dot_rsum _ D (fun a d => exp (score (ent 0) il jl a - sf) * (PS (pairs il jl a) d - PS (pairs il jl f) d))).
    assert (EX : forall a, dot D (fun d => exp (score (ent 0) il jl a - sf) * (PS (pairs il jl a) d - PS (pairs il jl f) d)) w = exp (score (ent 0) il jl a - sf) * (Q a - Q f)).
    { intros a. rewrite dot_scale. f_equal. rewrite (dot_ext D _ w (fun d => PS (pairs il jl a) d + (-1) * PS (pairs il jl f) d) w) by (intros; try reflexivity; ring).
      rewrite dot_add, dot_scale. unfold Q. ring. }
    rewrite (rsum_ext _ (fun a => dot D (fun d => exp (score (ent 0) il jl a - sf) * (PS (pairs il jl a) d - PS (pairs il jl f) d)) w) (fun a => exp (score (ent 0) il jl a - sf) * (Q a - Q f)) H) by (intros a _; apply EX).
    unfold excess. fold sf. fold PS.
    change (rsum (fun a => exp (score (ent 0) il jl a - sf) * (dot D (PS (pairs il jl a)) w - dot D (PS (pairs il jl f)) w)) H)
      with (rsum (fun a => exp (score (ent 0) il jl a - sf) * (Q a - Q f)) H).
    set (Zr := rsum (fun a => exp (score (ent 0) il jl a - sf)) H). set (Y := rsum (fun a => exp (score (ent 0) il jl a - sf) * (Q a - Q f)) H).
    assert (Zp : 0 < Zr) by (apply rsum_pos; [destruct H; [destruct Hf|discriminate]|intros; apply exp_pos]).
    assert (E1 : rsum (fun a => exp (score (ent 0) il jl a)) H = exp sf * Zr).
    { unfold Zr. rewrite <- rsum_scale. apply rsum_ext. intros a _. rewrite <- exp_plus. f_equal. ring. }
    assert (E2 : rsum (fun a => exp (score (ent 0) il jl a) * Q a) H = exp sf * (Y + Q f * Zr)).
    { unfold Y, Zr. rewrite <- (rsum_scale _ _ (Q f)), <- rsum_plus, <- rsum_scale. apply rsum_ext. intros a _.
      replace (exp (score (ent 0) il jl a)) with (exp sf * exp (score (ent 0) il jl a - sf)) by (rewrite <- exp_plus; f_equal; ring). ring. }
    rewrite E1, E2. assert (0 < exp sf) by apply exp_pos. match goal with |- _ = _ - _ * ?y => change y with Y end. field. lra.
Qed.
End Gradient.
