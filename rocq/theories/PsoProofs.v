(** Evaluation of the likelihoods: what every schedule leaves behind. *)
From Coq Require Import ZArith List Bool Arith Lia Permutation.
From Verif Require Import Base ListUtil PsoModel PsoSpec.
Import ListNotations.
Local Open Scope nat_scope.

Lemma lle_refl : forall a, lle a a.
Proof. intros [|z]; cbn; [exact I | lia]. Qed.
Lemma lle_trans : forall a b c, lle a b -> lle b c -> lle a c.
Proof. intros [|x] [|y] [|z]; cbn; try tauto; lia. Qed.
Lemma lle_anti : forall a b, lle a b -> lle b a -> a = b.
Proof. intros [|x] [|y]; cbn; try tauto; intros; f_equal; lia. Qed.
Lemma lgt_spec : forall a b, lgt a b = false -> lle a b.
Proof. intros [|x] [|y]; cbn; try tauto; try discriminate. intro H. apply Z.ltb_ge in H. exact H. Qed.
Lemma lgt_true : forall a b, lgt a b = true -> lle b a /\ a <> NegInf /\ a <> b.
Proof.
  intros [|x] [|y]; cbn; try discriminate; intro H.
  - split; [exact I | split; discriminate].
  - apply Z.ltb_lt in H. split; [lia|]. split; [discriminate|]. intro E. injection E. lia.
Qed.

Section Evaluate.
Context {A Tr : Type}.
Variable eval : Tr -> list A -> lik.
Notation part := (part (A := A) (Tr := Tr)).
Notation econf := (econf (A := A) (Tr := Tr)).
Variable ps : list part.
Notation n := (length ps).

Definition at_stage (k : nat) (p : part) : part :=
  match k with 0 => p | 1 => set_cur eval p | _ => keep_best (set_cur eval p) end.
Definition stage_of (f : phase) : nat := match f with Eval => 0 | Keep => 1 | Crit => 2 end.

Definition left (k : econf) : list nat := concat (map todo (eths k)).

Record inv (k : econf) (st : nat -> nat) : Prop := {
  i_parts : forall i, nth_error (eparts k) i = option_map (at_stage (st i)) (nth_error ps i);
  i_head : forall t h r f, nth_error (eths k) t = Some (TH (h :: r) f) -> st h = stage_of f /\ forall i, In i r -> st i = 0;
  i_nodup : NoDup (left k);
  i_done : forall i, i < n -> ~ In i (left k) -> st i = 2;
  i_empty : forall t f, nth_error (eths k) t = Some (TH [] f) -> f = Eval;
  i_besti : besti k = 0 \/ (besti k < n /\ ~ In (besti k) (left k))
}.

Lemma in_left : forall (ths : list thread) t a i, nth_error ths t = Some a -> In i (todo a) -> In i (concat (map todo ths)).
Proof. intros ths t a i H Hi. apply in_concat. exists (todo a). split; [apply in_map; eapply nth_error_In, H | exact Hi]. Qed.

Lemma split_th : forall (ths : list thread) t a, nth_error ths t = Some a -> exists l1 l2, ths = l1 ++ a :: l2 /\ length l1 = t.
Proof. intros. destruct (nth_error_split _ _ H) as [l1 [l2 [E L]]]. eauto. Qed.

Lemma upd_mid : forall {B} (l1 l2 : list B) a b, upd (l1 ++ a :: l2) (length l1) b = l1 ++ b :: l2.
Proof.
  intros. apply list_ext. intro i. destruct (Nat.eq_dec i (length l1)) as [->|Hn].
  - rewrite nth_error_upd_eq by (rewrite app_length; cbn; lia). rewrite nth_error_app2 by lia. rewrite Nat.sub_diag. reflexivity.
  - rewrite nth_error_upd_neq by congruence.
    destruct (lt_dec i (length l1)).
    + rewrite !nth_error_app1 by assumption. reflexivity.
    + rewrite !nth_error_app2 by lia. destruct (i - length l1) eqn:E; [lia|]. reflexivity.
Qed.

(** Two threads never hold the same iteration. *)
Lemma disjoint_th : forall (ths : list thread) t u a b i, NoDup (concat (map todo ths)) -> nth_error ths t = Some a -> nth_error ths u = Some b ->
  In i (todo a) -> In i (todo b) -> t = u.
Proof.
  induction ths as [|x ths IH]; intros t u a b i Hnd Ha Hb Hia Hib; [destruct t; discriminate|].
  cbn in Hnd.
  assert (Hd : forall j, In j (todo x) -> ~ In j (concat (map todo ths))).
  { clear - Hnd. revert Hnd. generalize (concat (map todo ths)). induction (todo x) as [|y l IHl]; intros m Hnd j Hj; [contradiction|].
    cbn in Hnd. inversion Hnd; subst. destruct Hj as [->|Hj]; [intro; apply H1, in_app_iff; tauto | apply IHl; assumption]. }
  assert (Hnd' : NoDup (concat (map todo ths))).
  { clear - Hnd. induction (todo x) as [|y l IHl]; [exact Hnd|]. cbn in Hnd. inversion Hnd; auto. }
  destruct t as [|t], u as [|u]; cbn in Ha, Hb.
  - reflexivity.
  - injection Ha as <-. exfalso. apply (Hd i Hia). eapply in_left; eassumption.
  - injection Hb as <-. exfalso. apply (Hd i Hib). eapply in_left; eassumption.
  - f_equal. eapply IH; eassumption.
Qed.

Lemma left_same : forall (ths : list thread) t l f g, nth_error ths t = Some (TH l f) -> concat (map todo (upd ths t (TH l g))) = concat (map todo ths).
Proof.
  intros. destruct (split_th _ _ _ H) as [l1 [l2 [-> <-]]]. rewrite upd_mid, !map_app. cbn. reflexivity.
Qed.

Lemma left_less : forall (ths : list thread) t h r f g, nth_error ths t = Some (TH (h :: r) f) ->
  Permutation (concat (map todo ths)) (h :: concat (map todo (upd ths t (TH r g)))).
Proof.
  intros. destruct (split_th _ _ _ H) as [l1 [l2 [-> <-]]]. rewrite upd_mid, !map_app. cbn. rewrite !concat_app. cbn.
  symmetry. apply Permutation_middle.
Qed.

Definition bump (st : nat -> nat) (h k : nat) : nat -> nat := fun i => if i =? h then k else st i.

Lemma upd_parts : forall (l : list part) (st : nat -> nat) h p k,
  (forall i, nth_error l i = option_map (at_stage (st i)) (nth_error ps i)) -> nth_error ps h = Some p ->
  forall i, nth_error (upd l h (at_stage k p)) i = option_map (at_stage (bump st h k i)) (nth_error ps i).
Proof.
  intros l st h p k Hl Hp i. unfold bump. destruct (Nat.eqb_spec i h) as [->|Hn].
  - rewrite nth_error_upd_eq. + rewrite Hp. reflexivity.
    + apply nth_error_Some. rewrite Hl, Hp. discriminate.
  - rewrite nth_error_upd_neq by congruence. apply Hl.
Qed.

(** What one step does. *)
Lemma step_inv : forall t k k' st, inv k st -> estep eval t k = Some k' ->
  (exists h r p f, nth_error (eths k) t = Some (TH (h :: r) f) /\ f <> Crit /\ nth_error ps h = Some p /\ besti k' = besti k /\
     eths k' = upd (eths k) t (TH (h :: r) (match f with Eval => Keep | _ => Crit end)) /\
     left k' = left k /\ In h (left k) /\ st h = stage_of f /\
     inv k' (bump st h (S (stage_of f)))) \/
  (exists h r p b, nth_error (eths k) t = Some (TH (h :: r) Crit) /\ nth_error ps h = Some p /\ nth_error (eparts k) (besti k) = Some b /\
     besti k' = (if lgt (value eval p) (cur b) then h else besti k) /\
     eths k' = upd (eths k) t (TH r Eval) /\ eparts k' = eparts k /\
     Permutation (left k) (h :: left k') /\ st h = 2 /\
     inv k' st).
Proof.
  intros t k k' st I Hs. unfold estep in Hs.
  destruct (nth_error (eths k) t) as [[l f]|] eqn:Et; [|discriminate].
  destruct l as [|h r]; [discriminate|].
  destruct (i_head _ _ I _ _ _ _ Et) as [Hh Hr].
  assert (Hin : In h (left k)) by (eapply in_left; [exact Et | left; reflexivity]).
  assert (Hnr : ~ In h r).
  { pose proof (i_nodup _ _ I) as Hnd. unfold left in Hnd. destruct (split_th _ _ _ Et) as [l1 [l2 [E _]]]. rewrite E, map_app, concat_app in Hnd. cbn in Hnd.
    apply NoDup_remove_2 in Hnd. intro Hx. apply Hnd. rewrite !in_app_iff. tauto. }
  assert (Hoth : forall u h' r' f', u <> t -> nth_error (eths k) u = Some (TH (h' :: r') f') -> h' <> h /\ ~ In h r').
  { intros u h' r' f' Hu Eu. split.
    - intros ->. apply Hu. eapply (disjoint_th (eths k) u t); [apply (i_nodup _ _ I) | exact Eu | exact Et | left; reflexivity | left; reflexivity].
    - intro Hx. apply Hu. eapply (disjoint_th (eths k) u t _ _ h); [apply (i_nodup _ _ I) | exact Eu | exact Et | right; exact Hx | left; reflexivity]. }
  assert (Htl : t < length (eths k)) by (apply nth_error_Some; congruence).
  assert (Mv : forall f' p (Hf : f <> Crit) (Hp : nth_error ps h = Some p),
     inv (EC (upd (eparts k) h (at_stage (S (stage_of f)) p)) (besti k) (upd (eths k) t (TH (h :: r) f'))) (bump st h (S (stage_of f))) \/ stage_of f' <> S (stage_of f)).
  { intros f' p Hf Hp. destruct (Nat.eq_dec (stage_of f') (S (stage_of f))) as [Ef|]; [left|right; assumption].
    constructor; cbn [eparts besti eths].
    - apply upd_parts; [apply (i_parts _ _ I) | exact Hp].
    - intros u h' r' g Eu. destruct (Nat.eq_dec u t) as [->|Hu].
      + rewrite nth_error_upd_eq in Eu by assumption. injection Eu as <- <- <-. unfold bump. split; [rewrite Nat.eqb_refl; congruence|].
        intros i Hi. destruct (Nat.eqb_spec i h) as [->|]; [contradiction | auto].
      + rewrite nth_error_upd_neq in Eu by congruence. destruct (Hoth _ _ _ _ Hu Eu) as [H1 H2].
        destruct (i_head _ _ I _ _ _ _ Eu) as [H3 H4]. unfold bump. split.
        * destruct (Nat.eqb_spec h' h); [contradiction | exact H3].
        * intros i Hi. destruct (Nat.eqb_spec i h) as [->|]; [contradiction | auto].
    - unfold left. cbn [eths]. rewrite (left_same _ _ _ _ _ Et). apply (i_nodup _ _ I).
    - unfold left. cbn [eths]. rewrite (left_same _ _ _ _ _ Et). intros i Hi Hni. unfold bump. destruct (Nat.eqb_spec i h) as [->|].
      + contradiction.
      + apply (i_done _ _ I); assumption.
    - intros u g Eu. destruct (Nat.eq_dec u t) as [->|Hu].
      + rewrite nth_error_upd_eq in Eu by assumption. discriminate.
      + rewrite nth_error_upd_neq in Eu by congruence. eapply (i_empty _ _ I), Eu.
    - unfold left. cbn [eths]. rewrite (left_same _ _ _ _ _ Et). apply (i_besti _ _ I). }
  pose proof (i_parts _ _ I h) as Hph. rewrite Hh in Hph.
  destruct f; cbn [stage_of] in *.
  - destruct (nth_error (eparts k) h) as [q|] eqn:Eq; [|discriminate]. injection Hs as <-.
    destruct (nth_error ps h) as [p|] eqn:Ep; [|discriminate]. cbn in Hph. injection Hph as ->.
    left. exists h, r, p, Eval. destruct (Mv Keep p ltac:(discriminate) eq_refl) as [Iv|C]; [|cbn in C; congruence].
    repeat (split; [first [reflexivity | assumption | discriminate]|]). split; [apply (left_same _ _ _ _ _ Et)|]. split; [exact Hin|]. split; [exact Hh|]. exact Iv.
  - destruct (nth_error (eparts k) h) as [q|] eqn:Eq; [|discriminate]. injection Hs as <-.
    destruct (nth_error ps h) as [p|] eqn:Ep; [|discriminate]. cbn in Hph. injection Hph as ->.
    left. exists h, r, p, Keep. destruct (Mv Crit p ltac:(discriminate) eq_refl) as [Iv|C]; [|cbn in C; congruence].
    repeat (split; [first [reflexivity | assumption | discriminate]|]). split; [apply (left_same _ _ _ _ _ Et)|]. split; [exact Hin|]. split; [exact Hh|]. exact Iv.
  - right. destruct (nth_error (eparts k) h) as [q|] eqn:Eq; [|discriminate].
    destruct (nth_error (eparts k) (besti k)) as [b|] eqn:Eb; [|discriminate]. injection Hs as <-.
    destruct (nth_error ps h) as [p|] eqn:Ep; [|discriminate]. cbn [option_map] in Hph. injection Hph as Hq.
    exists h, r, p, b. cbn [besti eths eparts].
    assert (Hcq : cur q = value eval p).
    { rewrite Hq. cbn [at_stage]. unfold keep_best. destruct (lgt _ _); reflexivity. }
    rewrite Hcq.
    pose proof (left_less _ _ _ _ _ Eval Et) as Hl.
    repeat (split; [first [reflexivity | assumption]|]).
    assert (Hnd : NoDup (h :: concat (map todo (upd (eths k) t (TH r Eval))))) by (eapply Permutation_NoDup; [exact Hl | apply (i_nodup _ _ I)]).
    constructor; cbn [eparts besti eths].
    + apply (i_parts _ _ I).
    + intros u h' r' g Eu. destruct (Nat.eq_dec u t) as [->|Hu].
      * rewrite nth_error_upd_eq in Eu by assumption. injection Eu as -> <-. cbn. split; [apply Hr; left; reflexivity | intros; apply Hr; right; assumption].
      * rewrite nth_error_upd_neq in Eu by congruence. apply (i_head _ _ I _ _ _ _ Eu).
    + inversion Hnd; assumption.
    + intros i Hi Hni. destruct (Nat.eq_dec i h) as [->|Hne]; [exact Hh|]. apply (i_done _ _ I); [exact Hi|].
      intro Hx. apply Hni. unfold left in Hx. rewrite Hl in Hx. destruct Hx as [->|Hx]; [congruence | exact Hx].
    + intros u g Eu. destruct (Nat.eq_dec u t) as [->|Hu].
      * rewrite nth_error_upd_eq in Eu by assumption. injection Eu as _ <-. reflexivity.
      * rewrite nth_error_upd_neq in Eu by congruence. eapply (i_empty _ _ I), Eu.
    + destruct (lgt _ _).
      * right. split; [apply nth_error_Some; congruence|]. inversion Hnd; assumption.
      * destruct (i_besti _ _ I) as [|[H1 H2]]; [left; assumption|right]. split; [exact H1|]. intro Hx. apply H2. unfold left. rewrite Hl. right. exact Hx.
Qed.

(** ** The greatest value *)
Definition top_inv (k : econf) (st : nat -> nat) : Prop :=
  forall i p b, nth_error ps i = Some p -> ~ In i (left k) -> nth_error (eparts k) (besti k) = Some b ->
    lle (value eval p) (cur b) \/ exists p0, nth_error ps 0 = Some p0 /\ lle (value eval p) (cur p0).

Lemma cur_stage : forall s p, s >= 1 -> cur (at_stage s p) = value eval p.
Proof. intros [|[|s]] p H; [lia|reflexivity|]. cbn [at_stage]. unfold keep_best. destruct (lgt _ _); reflexivity. Qed.

Lemma step_top : forall t k k' st st', inv k st -> top_inv k st -> estep eval t k = Some k' ->
  inv k' st' -> (forall i, st i <= st' i) -> (forall i, st i <> st' i -> In i (left k)) -> top_inv k' st'.
Proof.
  intros t k k' st st' I T Hs I' Hmono Hch. intros i p b Hp Hni Hb.
  destruct (step_inv _ _ _ _ I Hs) as [(h & r & q & f & Et & Hf & Hq & Eb & Eth & El & Hin & Hst & _)|(h & r & q & b0 & Et & Hq & Hb0 & Eb & Eth & Ep & Hl & Hst & _)].
  - rewrite El in Hni. rewrite Eb in Hb.
    pose proof (i_parts _ _ I (besti k)) as P1. pose proof (i_parts _ _ I' (besti k)) as P2. rewrite Hb in P2.
    destruct (nth_error ps (besti k)) as [pb|] eqn:Epb; [|discriminate]. cbn [option_map] in P1, P2. injection P2 as ->.
    destruct (T i p _ Hp Hni P1) as [T1|T1]; [|right; exact T1].
    destruct (Nat.eq_dec (st (besti k)) (st' (besti k))) as [E|E]; [rewrite <- E; left; exact T1|].
    destruct (Nat.eq_dec (st (besti k)) 0) as [E0|E0].
    + right. exists pb. rewrite E0 in T1. split; [|exact T1].
      destruct (i_besti _ _ I) as [B0|[_ H]]; [rewrite B0 in Epb; exact Epb|]. exfalso. apply H, Hch, E.
    + left. pose proof (Hmono (besti k)) as Hm. rewrite (cur_stage (st' (besti k))) by lia. rewrite (cur_stage (st (besti k))) in T1 by lia. exact T1.
  - rewrite Ep in Hb. rewrite Eb in Hb.
    destruct (Nat.eq_dec i h) as [->|Hne].
    + left. assert (p = q) by congruence. subst q. destruct (lgt (value eval p) (cur b0)) eqn:G.
      * pose proof (i_parts _ _ I h) as P1. rewrite Hb, Hp, Hst in P1. assert (Eq : b = at_stage 2 p) by (cbn [option_map] in P1; congruence). rewrite Eq, cur_stage by lia. apply lle_refl.
      * rewrite Hb0 in Hb. injection Hb as <-. apply lgt_spec, G.
    + assert (Hni' : ~ In i (left k)). { rewrite Hl. intros [->|H]; [congruence | contradiction]. }
      destruct (T i p b0 Hp Hni' Hb0) as [T1|T1]; [left|right; exact T1]. destruct (lgt (value eval q) (cur b0)) eqn:G.
      * pose proof (i_parts _ _ I h) as P1. rewrite Hb, Hq, Hst in P1. assert (Eq : b = at_stage 2 q) by (cbn [option_map] in P1; congruence). rewrite Eq, cur_stage by lia.
        eapply lle_trans; [exact T1 | apply lgt_true, G].
      * rewrite Hb0 in Hb. injection Hb as <-. exact T1.
Qed.

Lemma bump_facts : forall st h v, st h <= v -> (forall i, st i <= bump st h v i) /\ (forall i, st i <> bump st h v i -> i = h).
Proof. intros st h v H. unfold bump. split; intro i; destruct (Nat.eqb_spec i h) as [->|]; intros; auto; congruence. Qed.

Lemma step_ex : forall t k k' st, inv k st -> estep eval t k = Some k' -> exists st', inv k' st' /\ (forall i, st i <= st' i) /\ (top_inv k st -> top_inv k' st').
Proof.
  intros t k k' st I Hs.
  destruct (step_inv _ _ _ _ I Hs) as [(h & r & q & f & Et & Hf & Hq & Eb & Eth & El & Hin & Hst & I')|(h & r & q & b0 & Et & Hq & Hb0 & Eb & Eth & Ep & Hl & Hst & I')].
  - destruct (bump_facts st h (S (stage_of f)) ltac:(lia)) as [F1 F2]. exists (bump st h (S (stage_of f))). split; [exact I'|]. split; [exact F1|].
    intro T. apply (step_top t k k' st _ I T Hs I' F1). intros i0 Hi0. rewrite (F2 i0 Hi0). exact Hin.
  - exists st. split; [exact I'|]. split; [auto|]. intro T. apply (step_top t k k' st st I T Hs I'); [auto|]. intros i Hi. congruence.
Qed.

Lemma run_ex : forall sched k k' st, inv k st -> erun eval sched k = Some k' -> exists st', inv k' st' /\ (forall i, st i <= st' i) /\ (top_inv k st -> top_inv k' st').
Proof.
  induction sched as [|t s IH]; intros k k' st I Hr; cbn in Hr.
  - injection Hr as <-. eauto.
  - destruct (estep eval t k) as [k1|] eqn:E; [|discriminate]. destruct (step_ex _ _ _ _ I E) as (st1 & I1 & M1 & T1).
    destruct (IH _ _ _ I1 Hr) as (st2 & I2 & M2 & T2). exists st2. split; [exact I2|]. split; [|auto]. intro i. specialize (M1 i). specialize (M2 i). lia.
Qed.

Definition start (ch : list (list nat)) : econf := EC ps 0 (map (fun l => TH l Eval) ch).

Lemma left_start : forall ch, left (start ch) = concat ch.
Proof. intro ch. unfold left, start. cbn [eths]. rewrite map_map. cbn. rewrite map_id. reflexivity. Qed.

Lemma start_inv : forall ch, Permutation (concat ch) (seq 0 n) -> inv (start ch) (fun _ => 0).
Proof.
  intros ch Hp. constructor; try rewrite left_start; cbn [start eparts eths besti].
  - intro i. destruct (nth_error ps i); reflexivity.
  - intros t h r f Et. rewrite nth_error_map in Et. destruct (nth_error ch t); [|discriminate]. cbn in Et. injection Et as _ <-. auto.
  - eapply Permutation_NoDup; [symmetry; exact Hp | apply seq_NoDup].
  - intros i Hi Hni. exfalso. apply Hni. rewrite Hp. apply in_seq. lia.
  - intros t f Et. rewrite nth_error_map in Et. destruct (nth_error ch t); [|discriminate]. cbn in Et. injection Et as _ <-. reflexivity.
  - left. reflexivity.
Qed.

Lemma start_top : forall ch, Permutation (concat ch) (seq 0 n) -> top_inv (start ch) (fun _ => 0).
Proof.
  intros ch Hp i p b Hi Hni _. exfalso. apply Hni. rewrite left_start, Hp. apply in_seq. apply nth_error_lt in Hi. lia.
Qed.

Lemma finished_left : forall k, finished k = true -> left k = [].
Proof.
  intros k H. unfold finished, left in *. induction (eths k) as [|t l IH]; [reflexivity|]. cbn in *. destruct (todo t); [|discriminate]. cbn. apply IH, H.
Qed.


(** The outcome of an evaluation. *)
Theorem evaluate_all : forall ch sched (s s' : pso), parts s = ps -> Permutation (concat ch) (seq 0 n) -> evaluate eval ch sched s = Val s' ->
  parts s' = map (fun p => keep_best (set_cur eval p)) ps /\ topo s' = topo s /\
  exists i p, nth_error ps i = Some p /\
    (if lgt (value eval p) (cur (gbest s)) then gbest s' = keep_best (set_cur eval p) /\ improved s' = true else gbest s' = gbest s /\ improved s' = false) /\
    (forall q, In q ps -> lle (value eval q) (value eval p) \/ exists p0, nth_error ps 0 = Some p0 /\ lle (value eval q) (cur p0)).
Proof.
  intros ch sched s s' Es Hp Hev. unfold evaluate in Hev. rewrite Es in Hev. fold (start ch) in Hev.
  destruct (erun eval sched (start ch)) as [k|] eqn:Er; [|discriminate].
  destruct (finished k) eqn:Ef; [|discriminate]. apply finished_left in Ef.
  destruct (run_ex _ _ _ _ (start_inv ch Hp) Er) as (st & I & _ & T).
  assert (D : forall i, i < n -> st i = 2). { intros i Hi. apply (i_done _ _ I i Hi). rewrite Ef. intros []. }
  assert (Epk : eparts k = map (fun p => keep_best (set_cur eval p)) ps).
  { apply list_ext. intro i. rewrite (i_parts _ _ I), nth_error_map. destruct (nth_error ps i) eqn:Ei; [|reflexivity]. cbn. rewrite D by (eapply nth_error_lt, Ei). reflexivity. }
  destruct (nth_error (eparts k) (besti k)) as [b|] eqn:Eb; [|discriminate]. cbn [of_option obind] in Hev.
  pose proof (i_parts _ _ I (besti k)) as P. rewrite Eb in P. destruct (nth_error ps (besti k)) as [p|] eqn:Epb; [|discriminate]. cbn [option_map] in P. injection P as ->.
  rewrite D in * by (eapply nth_error_lt, Epb). rewrite cur_stage in Hev by lia.
  assert (R : forall q, In q ps -> lle (value eval q) (value eval p) \/ exists p0, nth_error ps 0 = Some p0 /\ lle (value eval q) (cur p0)).
  { intros q Hq. apply In_nth_error in Hq. destruct Hq as [i Hi]. specialize (T (start_top ch Hp) i q _ Hi ltac:(rewrite Ef; intros []) Eb).
    rewrite cur_stage in T by lia. exact T. }
  destruct (lgt (value eval p) (cur (gbest s))) eqn:G; injection Hev as <-; cbn; (split; [exact Epk|]; split; [reflexivity|]); exists (besti k), p; rewrite G; auto.
Qed.
End Evaluate.
