From Coq Require Import List Bool Arith Lia.
From Verif Require Import Base ListUtil RVecModel RVecSpec.
Import ListNotations.

Section Proofs.
Variable A : algebra.
Notation rvec := (rvec A).

Definition ok (r : rvec) (v : Vec A * Mat A) (s : status) : Prop :=
  rx A r = fst v /\ rS A r = snd v /\
  (vinv A r = true -> rinv A r = Some (m_inv A (snd v))) /\
  (vdet A r = true -> rdet A r = Some (m_det A (snd v))) /\
  (vL A r = true -> rL A r = Some (m_chol A (snd v))) /\
  match s with
  | NoDet => vdet A r = false
  | Good => vdet A r = true /\ gfac A r = Some (n_factor A (m_det A (snd v)))
  | Bad => vdet A r = true
  end.

Definition rel (st : list rvec) (vs : list (Vec A * Mat A)) (ss : list status) : Prop :=
  length st = length vs /\ length st = length ss /\
  forall i r v, nth_error st i = Some r -> nth_error vs i = Some v -> ok r v (nth i ss Bad).

Ltac six := split; [|split; [|split; [|split; [|split]]]]; cbn.

Lemma rel_get : forall st vs ss i, rel st vs ss ->
  (exists r v, nth_error st i = Some r /\ nth_error vs i = Some v /\ ok r v (nth i ss Bad)) \/
  (nth_error st i = None /\ nth_error vs i = None).
Proof.
  intros st vs ss i (H1 & H2 & H3).
  destruct (nth_error st i) as [r|] eqn:E1, (nth_error vs i) as [v|] eqn:E2; auto.
  - left. exists r, v. auto.
  - exfalso. apply nth_error_None in E2. apply nth_error_lt in E1. lia.
  - exfalso. apply nth_error_None in E1. apply nth_error_lt in E2. lia.
Qed.

Lemma rel_app : forall st vs ss r v s, rel st vs ss -> ok r v s -> rel (st ++ [r]) (vs ++ [v]) (ss ++ [s]).
Proof.
  intros st vs ss r v s (H1 & H2 & H3) Hok. split; [|split]; rewrite ?app_length; simpl; try lia.
  intros i r' v' Hr Hv. destruct (lt_dec i (length st)) as [Hl|Hl].
  - rewrite nth_error_app1 in Hr by auto. rewrite nth_error_app1 in Hv by lia. rewrite app_nth1 by lia. auto.
  - rewrite nth_error_app2 in Hr by lia. rewrite nth_error_app2 in Hv by lia. rewrite app_nth2 by lia.
    rewrite <- H1 in Hv. rewrite <- H2. destruct (i - length st) as [|k]; [|destruct k; discriminate].
    simpl in *. injection Hr as <-. injection Hv as <-. auto.
Qed.

Lemma rel_upd : forall st vs ss i r v s, rel st vs ss -> ok r v s -> rel (upd st i r) (upd vs i v) (upd ss i s).
Proof.
  intros st vs ss i r v s (H1 & H2 & H3) Hok. split; [|split]; rewrite ?upd_length; auto.
  intros j r' v' Hr Hv. rewrite nth_error_upd in Hr, Hv. destruct (Nat.eq_dec i j) as [<-|Hne].
  - destruct (lt_dec i (length st)) as [Hl|]; [|discriminate]. destruct (lt_dec i (length vs)); [|discriminate].
    injection Hr as <-. injection Hv as <-. rewrite nth_upd_eq by lia. auto.
  - rewrite nth_upd_neq by auto. auto.
Qed.

Lemma upd_nth : forall (ss : list status) i, upd ss i (nth i ss Bad) = ss.
Proof. induction ss as [|a l IH]; intros [|i]; simpl; auto. now rewrite IH. Qed.

Lemma rel_upd_same : forall st vs ss i r v, rel st vs ss -> nth_error vs i = Some v -> ok r v (nth i ss Bad) ->
  rel (upd st i r) vs ss.
Proof.
  intros st vs ss i r v H Hv Hok. rewrite <- (upd_same _ vs i v Hv). rewrite <- (upd_nth ss i). now apply rel_upd.
Qed.

Lemma rel_upd_same2 : forall st vs ss i r v s, rel st vs ss -> nth_error vs i = Some v -> ok r v s ->
  rel (upd st i r) vs (upd ss i s).
Proof. intros st vs ss i r v s H Hv Hok. rewrite <- (upd_same _ vs i v Hv). now apply rel_upd. Qed.

Lemma ok_inv : forall r v s, ok r v s -> ok (need_inv A r) v s /\ rinv A (need_inv A r) = Some (m_inv A (snd v)).
Proof.
  intros r v s (H1 & H2 & H3 & H4 & H5 & H6). unfold need_inv. destruct (vinv A r) eqn:E.
  - split; [six; auto|auto].
  - cbn. rewrite H2. split; [six; auto|auto].
Qed.
Lemma ok_L : forall r v s, ok r v s -> ok (need_L A r) v s /\ rL A (need_L A r) = Some (m_chol A (snd v)).
Proof.
  intros r v s (H1 & H2 & H3 & H4 & H5 & H6). unfold need_L. destruct (vL A r) eqn:E.
  - split; [six; auto|auto].
  - cbn. rewrite H2. split; [six; auto|auto].
Qed.
Lemma ok_det : forall r v s, ok r v s ->
  ok (need_det A r) v (after_det s) /\ rdet A (need_det A r) = Some (m_det A (snd v)).
Proof.
  intros r v s (H1 & H2 & H3 & H4 & H5 & H6). unfold need_det. destruct (vdet A r) eqn:E.
  - split; [|auto]. six; auto. destruct s; cbn; try tauto; congruence.
  - rewrite H2. split; [|reflexivity]. six; auto. destruct s; cbn; auto. destruct H6; congruence.
Qed.
Lemma ok_factor : forall r v s, ok r v s ->
  ok (need_factor A r) v (after_lik s) /\
  (s <> Bad -> gfac A (need_factor A r) = Some (n_factor A (m_det A (snd v)))).
Proof.
  intros r v s (H1 & H2 & H3 & H4 & H5 & H6). unfold need_factor. destruct (vdet A r) eqn:E.
  - split; [six; auto; destruct s; cbn; try tauto; congruence|]. intros Hb. destruct s; [congruence|tauto|tauto].
  - rewrite H2. split; [|reflexivity]. six; auto. destruct s; cbn; auto; destruct H6; congruence.
Qed.

Definition agree (o : op A) (ss : list status) (s s' : seen A) : Prop :=
  match o with
  | Likelihood i _ => nth i ss Bad <> Bad -> s = s'
  | _ => s = s'
  end.

Lemma exec_rel : forall o st vs ss, rel st vs ss ->
  match exec o st, value o vs with
  | Some (st', s), Some (vs', s') => rel st' vs' (track o ss) /\ agree o ss s s'
  | None, None => True
  | _, _ => False
  end.
Proof.
  intros o st vs ss R. destruct o; cbn [exec value track agree].
  - split; [|reflexivity]. apply rel_app; auto. six; auto; discriminate.
  - split; [|reflexivity]. apply rel_app; auto. six; auto; discriminate.
  - destruct (rel_get st vs ss j R) as [(r & v & E1 & E2 & Hok)|[E1 E2]]; rewrite E1, E2; simpl; auto.
    split; [|reflexivity]. apply rel_app; auto.
  - destruct (rel_get st vs ss i R) as [(r & v & E1 & E2 & Hok)|[E1 E2]]; rewrite E1, E2; simpl; auto.
    destruct (rel_get st vs ss j R) as [(r' & v' & E1' & E2' & Hok')|[E1' E2']]; rewrite E1', E2'; simpl; auto.
    split; [|reflexivity]. apply rel_upd; auto. destruct Hok' as (H1 & H2 & H3 & H4 & H5 & H6).
    six; auto. destruct (nth j ss Bad); simpl; auto. tauto.
  - destruct (rel_get st vs ss i R) as [(r & v & E1 & E2 & Hok)|[E1 E2]]; rewrite E1, E2; simpl; auto.
    split; [|reflexivity]. rewrite <- (upd_nth ss i). apply rel_upd; auto.
    destruct Hok as (H1 & H2 & H3 & H4 & H5 & H6). six; auto.
  - destruct (rel_get st vs ss i R) as [(r & v & E1 & E2 & Hok)|[E1 E2]]; rewrite E1, E2; simpl; auto.
    split; [|reflexivity]. apply rel_upd; auto. destruct Hok as (H1 & _). six; auto; discriminate.
  - destruct (rel_get st vs ss i R) as [(r & v & E1 & E2 & Hok)|[E1 E2]]; rewrite E1, E2; simpl; auto.
    destruct (ok_L _ _ _ Hok) as [Ha Hb]. rewrite Hb. split; [|reflexivity]. eapply rel_upd_same; eauto.
  - destruct (rel_get st vs ss i R) as [(r & v & E1 & E2 & Hok)|[E1 E2]]; rewrite E1, E2; simpl; auto.
    destruct (ok_inv _ _ _ Hok) as [Ha Hb]. rewrite Hb. split; [|reflexivity]. eapply rel_upd_same; eauto.
  - destruct (rel_get st vs ss i R) as [(r & v & E1 & E2 & Hok)|[E1 E2]]; rewrite E1, E2; simpl; auto.
    destruct (ok_det _ _ _ Hok) as [Ha Hb]. rewrite Hb. split; [|reflexivity]. eapply rel_upd_same2; eauto.
  - destruct (rel_get st vs ss i R) as [(r & v & E1 & E2 & Hok)|[E1 E2]]; rewrite E1, E2; simpl; auto.
    destruct (ok_inv _ _ _ Hok) as [Ha Hb]. rewrite Hb. split; [eapply rel_upd_same; eauto|].
    destruct Ha as (-> & _). reflexivity.
  - destruct (rel_get st vs ss i R) as [(r & v & E1 & E2 & Hok)|[E1 E2]]; rewrite E1, E2; simpl; auto.
    destruct (ok_factor _ _ _ Hok) as [Ha Hb]. destruct (ok_inv _ _ _ Ha) as [Hc Hd]. rewrite Hd.
    split; [eapply rel_upd_same2; eauto|]. intros Hn. specialize (Hb Hn).
    assert (E : gfac A (need_inv A (need_factor A r)) = gfac A (need_factor A r)).
    { unfold need_inv at 1. destruct (vinv A (need_factor A r)); reflexivity. }
    rewrite E, Hb. destruct Hc as (-> & _). reflexivity.
  - destruct (rel_get st vs ss i R) as [(r & v & E1 & E2 & Hok)|[E1 E2]]; rewrite E1, E2; simpl; auto.
    destruct (rel_get st vs ss j R) as [(r' & v' & E1' & E2' & Hok')|[E1' E2']]; rewrite E1', E2'; simpl; auto.
    destruct Hok as (H1 & H2 & H3 & H4 & H5 & H6).
    assert (E : (if vL A r then rL A r else Some (m_chol A (rS A r))) = Some (m_chol A (snd v))).
    { destruct (vL A r); [auto|now rewrite H2]. }
    rewrite E. split; [|reflexivity]. apply rel_upd; auto. rewrite H1. six; simpl; auto; discriminate.
  - destruct (rel_get st vs ss i R) as [(r & v & E1 & E2 & Hok)|[E1 E2]]; rewrite E1, E2; simpl; auto.
    destruct (ok_L _ _ _ Hok) as [Ha Hb]. rewrite Hb. split; [|reflexivity].
    rewrite <- (upd_nth ss i). apply rel_upd; auto.
    destruct Ha as (H1 & H2 & H3 & H4 & H5 & H6). rewrite H1. six; auto.
Qed.

Lemma exec_all_rel : forall l st vs ss, rel st vs ss ->
  match exec_all l st, values l vs with
  | Some outs, Some vals => length outs = length l /\ length vals = length l /\
     forall k o, nth_error l k = Some o ->
       (is_likelihood o = false \/ nth_error (trusted l ss) k = Some true) -> nth_error outs k = nth_error vals k
  | None, None => True
  | _, _ => False
  end.
Proof.
  induction l as [|o l IH]; intros st vs ss R.
  - simpl. split; [auto|]. split; [auto|]. intros [|k] o H; discriminate.
  - cbn [exec_all values trusted]. assert (H := exec_rel o st vs ss R).
    destruct (exec o st) as [[st' s]|], (value o vs) as [[vs' s']|]; try tauto.
    destruct H as [R' Ha]. specialize (IH st' vs' (track o ss) R').
    destruct (exec_all l st') as [outs|], (values l vs') as [vals|]; try tauto. simpl.
    destruct IH as (L1 & L2 & IH). split; [lia|]. split; [lia|].
    intros [|k] o' Ho Hc; simpl in *.
    + injection Ho as <-. f_equal. destruct o; simpl in *; auto.
      apply Ha. destruct Hc as [Hc|Hc]; [discriminate|]. injection Hc as Hc. destruct (nth i ss Bad); congruence.
    + eapply IH; eauto.
Qed.

Lemma rel_nil : rel [] [] [].
Proof. split; [auto|split; [auto|]]. intros [|i]; discriminate. Qed.

Theorem caches_ok : forall (l : list (op A)) vals, values l [] = Some vals ->
  exists outs, exec_all l [] = Some outs /\ length outs = length vals /\
  forall k o, nth_error l k = Some o -> is_likelihood o = false -> nth_error outs k = nth_error vals k.
Proof.
  intros l vals H. assert (G := exec_all_rel l [] [] [] rel_nil). rewrite H in G.
  destruct (exec_all l []) as [outs|]; [|tauto]. exists outs. destruct G as (G1 & G2 & G3).
  split; [auto|]. split; [congruence|]. intros k o Hk Hl. eapply G3; eauto.
Qed.

Theorem likelihood_ok : forall (l : list (op A)) vals, values l [] = Some vals ->
  exists outs, exec_all l [] = Some outs /\
  forall k, nth_error (trusted l []) k = Some true -> nth_error outs k = nth_error vals k.
Proof.
  intros l vals H. assert (G := exec_all_rel l [] [] [] rel_nil). rewrite H in G.
  destruct (exec_all l []) as [outs|]; [|tauto]. exists outs. destruct G as (G1 & G2 & G3). split; [auto|].
  intros k Hk. destruct (nth_error l k) as [o|] eqn:E.
  - eapply G3; eauto.
  - apply nth_error_None in E. assert (E1 := proj2 (nth_error_None outs k)). assert (E2 := proj2 (nth_error_None vals k)).
    rewrite E1, E2 by lia. reflexivity.
Qed.
End Proofs.
