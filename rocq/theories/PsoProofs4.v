(** Executions of the swarm. *)
From Coq Require Import ZArith List Bool Arith Lia Permutation.
From Verif Require Import Base ListUtil Loop OspaModel PsoModel PsoSpec PsoProofs PsoProofs2 PsoProofs3.
Import ListNotations.
Local Open Scope nat_scope.

Section Run.
Context {A Tr : Type}.
Variable d : A -> A -> Z.
Variable c : Z.
Variable eval : Tr -> list A -> lik.
Variable plus : A -> A -> A.
Notation part := (part (A := A) (Tr := Tr)).
Notation pso := (pso (A := A) (Tr := Tr)).

Definition paired (p : part) : Prop := length (vel p) = length (lms p) /\ length (bvel p) = length (blms p).
Definition wf (n : nat) (s : pso) : Prop := length (parts s) = n /\ (forall p, In p (parts s) -> paired p) /\ topology_ok n (topo s).

(** What a move leaves alone. *)
Definition same_best (p q : part) : Prop := btraj q = btraj p /\ blms q = blms p /\ bvel q = bvel p /\ cur q = cur p /\ best q = best p.
Definition moved (s s' : pso) : Prop := gbest s' = gbest s /\ improved s' = improved s /\ topo s' = topo s /\
  forall i q, nth_error (parts s') i = Some q -> exists p, nth_error (parts s) i = Some p /\ same_best p q.

Lemma same_best_refl : forall p, same_best p p.
Proof. intro p. unfold same_best. tauto. Qed.

Lemma move_one_ok : forall steer o n s i, wf n s -> i < n -> exists s', move_one d c plus steer o i s = Val s' /\ wf n s' /\ moved s s'.
Proof.
  intros steer o n s i (Ln & Hp & Lt & Ht) Hi. unfold move_one.
  destruct (nth_error_ex _ (topo s) i ltac:(lia)) as [tp Etp]. rewrite Etp. cbn [of_option obind].
  destruct (nth_error_ex _ (parts s) i ltac:(lia)) as [p Ep].
  destruct (neighbour_ok (parts s) i p tp Ep) as (b & Eb & Hb). { intros x Hx. rewrite Ln. apply (Ht _ _ Etp), Hx. }
  rewrite Eb. cbn [obind]. rewrite Ep. cbn [of_option obind].
  assert (Lb : b < n). { destruct Hb as [[-> _]|[_ (q & Eq & _)]]; [lia | apply nth_error_lt in Eq; lia]. }
  destruct (nth_error_ex _ (parts s) b ltac:(lia)) as [g Eg]. rewrite Eg. cbn [of_option obind].
  destruct (Hp p (nth_error_In _ _ Ep)) as [P1 P2]. destruct (Hp g (nth_error_In _ _ Eg)) as [G1 G2].
  destruct (move_map d c (o i) p g P1 P2 G2) as (l & v & asp & asg & mp & mg & np & ng & E & Llv & _). rewrite E. cbn [obind fst snd].
  rewrite Llv, Nat.leb_refl. eexists. split; [reflexivity|]. split.
  - unfold wf. cbn [parts topo]. split; [rewrite upd_length; exact Ln|]. split; [|split; assumption].
    intros q Hq. apply In_nth_error in Hq. destruct Hq as [j Hj]. destruct (Nat.eq_dec j i) as [->|Hn].
    + rewrite nth_error_upd_eq in Hj by lia. injection Hj as <-. split; cbn; [rewrite map_length, combine_length; lia | exact P2].
    + rewrite nth_error_upd_neq in Hj by congruence. apply Hp. eapply nth_error_In, Hj.
  - unfold moved. cbn [parts gbest improved topo]. split; [reflexivity|]. split; [reflexivity|]. split; [reflexivity|]. intros j q Hj. destruct (Nat.eq_dec j i) as [->|Hn].
    + rewrite nth_error_upd_eq in Hj by lia. injection Hj as <-. exists p. split; [exact Ep|]. unfold same_best. cbn. tauto.
    + rewrite nth_error_upd_neq in Hj by congruence. exists q. split; [exact Hj | apply same_best_refl].
Qed.

Theorem move_ok : forall rnd g K steer o n s, wf n s -> (forall i j, rnd i j < n) ->
  exists s', moveParticles d c plus rnd g K steer o s = Val s' /\ wf n s' /\ gbest s' = gbest s /\
    forall i q, nth_error (parts s') i = Some q -> exists p, nth_error (parts s) i = Some p /\ same_best p q.
Proof.
  intros rnd g K steer o n s (Ln & Hp & Ht) Hr. unfold moveParticles. rewrite Ln.
  assert (T : exists t, (if improved s then Val (topo s) else updateTopology rnd g n K (topo s)) = Val t /\ topology_ok n t).
  { destruct (improved s); [eauto|]. apply update_topology_ok; [exact Hr | auto]. }
  destruct T as (t & -> & Ht'). cbn [obind].
  destruct (for_inv (fun _ s1 => wf n s1 /\ moved (PS (parts s) (gbest s) (improved s) t) s1) (move_one d c plus steer o) n (PS (parts s) (gbest s) (improved s) t)) as (s' & E & W & M).
  - split; [split; [exact Ln | split; assumption]|]. repeat (split; [reflexivity|]). intros i q Hq. exists q. split; [exact Hq | apply same_best_refl].
  - intros k s1 Hk [W M]. destruct (move_one_ok steer o n s1 k W Hk) as (s2 & E2 & W2 & M2). exists s2. split; [exact E2|]. split; [exact W2|].
    destruct M as (M1 & M1' & M1'' & M3). destruct M2 as (M4 & M4' & M4'' & M5). split; [congruence|]. split; [congruence|]. split; [congruence|].
    intros i q Hq. destruct (M5 _ _ Hq) as (p1 & Hp1 & S1). destruct (M3 _ _ Hp1) as (p0 & Hp0 & S0). exists p0. split; [exact Hp0|].
    unfold same_best in *. intuition congruence.
  - exists s'. split; [exact E|]. split; [exact W|]. destruct M as (M1 & _ & _ & M3). auto.
Qed.

(** ** Histories *)
Definition hist_inv (h : list (list lik)) (s : pso) : Prop :=
  (forall i p, nth_error (parts s) i = Some p -> greatest (column i h) (best p) /\ (best p <> NegInf -> eval (btraj p) (blms p) = best p) /\
     cur p = match h with [] => NegInf | r :: _ => nth i r NegInf end) /\
  (cur (gbest s) = NegInf \/ In (cur (gbest s)) (concat h)) /\ (cur (gbest s) <> NegInf -> value eval (gbest s) = cur (gbest s)).

Lemma greatest_cons : forall l v w u, greatest l v -> (u = w \/ u = v) -> lle v u -> lle w u -> greatest (w :: l) u.
Proof.
  intros l v w u [H1 H2] Hu L1 L2. split.
  - destruct Hu as [-> | ->]; [right; left; reflexivity | destruct H1; [left; assumption | right; right; assumption]].
  - intros x [<-|Hx]; [exact L2 | eapply lle_trans; [apply H2, Hx | exact L1]].
Qed.

Lemma keep_cur : forall q : part, cur (keep_best (set_cur eval q)) = value eval q.
Proof. intro q. unfold keep_best. destruct (lgt _ _); reflexivity. Qed.
Lemma keep_value : forall q : part, value eval (keep_best (set_cur eval q)) = value eval q.
Proof. intro q. unfold keep_best. destruct (lgt _ _); reflexivity. Qed.
Lemma keep_paired : forall q : part, paired q -> paired (keep_best (set_cur eval q)).
Proof. intros q [H1 H2]. unfold keep_best. destruct (lgt _ _); split; cbn; assumption. Qed.

Lemma evaluate_hist : forall n ch sched s s' h, wf n s -> hist_inv h s -> Permutation (concat ch) (seq 0 (length (parts s))) -> evaluate eval ch sched s = Val s' ->
  wf n s' /\ hist_inv (map (value eval) (parts s) :: h) s' /\ lle (cur (gbest s)) (cur (gbest s')) /\
  (greatest (concat h) (cur (gbest s)) -> greatest (concat (map (value eval) (parts s) :: h)) (cur (gbest s'))).
Proof.
  intros n ch sched s s' h (Ln & Hp & Ht) (H1 & H2 & H3) Hc He.
  destruct (evaluate_all eval (parts s) ch sched s s' eq_refl Hc He) as (E1 & E2 & i & p & Ei & Eg & Es).
  pose proof keep_cur as CK. pose proof keep_value as VK.
  split; [|split; [|split]].
  - split; [rewrite E1, map_length; exact Ln|]. split; [|rewrite E2; exact Ht]. intros q Hq. rewrite E1 in Hq. apply in_map_iff in Hq. destruct Hq as (r & <- & Hr).
    apply keep_paired, Hp, Hr.
  - split; [|split].
    + intros j q Hq. rewrite E1, nth_error_map in Hq. destruct (nth_error (parts s) j) as [r|] eqn:Er; [|discriminate]. cbn in Hq. injection Hq as <-.
      destruct (H1 _ _ Er) as (G1 & G2 & G3). cbn [column map].
      assert (N : nth j (map (value eval) (parts s)) NegInf = value eval r) by (apply nth_error_nth; rewrite nth_error_map, Er; reflexivity).
      rewrite N. fold (column j h). unfold keep_best at 1 2 3 4 5. cbn [set_cur cur best]. fold (value eval r). destruct (lgt (value eval r) (best r)) eqn:G; cbn [best btraj blms].
      * split; [|split; [reflexivity | apply CK]]. eapply greatest_cons; [exact G1 | left; reflexivity | apply lgt_true, G | apply lle_refl].
      * split; [|split; [exact G2 | apply CK]]. eapply greatest_cons; [exact G1 | right; reflexivity | apply lle_refl | apply lgt_spec, G].
    + destruct (lgt (value eval p) (cur (gbest s))); destruct Eg as [-> _].
      * right. rewrite CK. cbn [concat]. apply in_app_iff. left. apply in_map. eapply nth_error_In, Ei.
      * destruct H2 as [H2|H2]; [left; exact H2 | right; cbn [concat]; apply in_app_iff; right; exact H2].
    + destruct (lgt (value eval p) (cur (gbest s))); destruct Eg as [-> _]; [rewrite CK, VK; reflexivity | exact H3].
  - destruct (lgt (value eval p) (cur (gbest s))) eqn:G; destruct Eg as [-> _]; [rewrite CK; apply lgt_true, G | apply lle_refl].
  - intros [G1 G2].
    assert (Es' : forall q, In q (parts s) -> lle (value eval q) (value eval p) \/ lle (value eval q) (cur (gbest s))).
    { intros q Hq. destruct (Es q Hq) as [H|(p0 & E0 & H)]; [left; exact H | right]. eapply lle_trans; [exact H|].
      destruct (H1 _ _ E0) as (_ & _ & ->). destruct h as [|r h0]; [exact I|].
      destruct (lt_dec 0 (length r)) as [Lr|Lr]; [apply G2; cbn [concat]; apply in_app_iff; left; apply nth_In, Lr | rewrite nth_overflow by lia; exact I]. }
    destruct (lgt (value eval p) (cur (gbest s))) eqn:G; destruct Eg as [-> _].
    + rewrite CK. split.
      * right. cbn [concat]. apply in_app_iff. left. apply in_map. eapply nth_error_In, Ei.
      * intros x Hx. cbn [concat] in Hx. apply in_app_iff in Hx. destruct Hx as [Hx|Hx]; [|eapply lle_trans; [apply G2, Hx | apply lgt_true, G]].
        apply in_map_iff in Hx. destruct Hx as (q & <- & Hq). destruct (Es' q Hq) as [H|H]; [exact H | eapply lle_trans; [exact H | apply lgt_true, G]].
    + split; [destruct G1; [left; assumption | right; cbn [concat]; apply in_app_iff; tauto]|].
      intros x Hx. cbn [concat] in Hx. apply in_app_iff in Hx. destruct Hx as [Hx|Hx]; [|apply G2, Hx].
      apply in_map_iff in Hx. destruct Hx as (q & <- & Hq). destruct (Es' q Hq) as [H|H]; [eapply lle_trans; [exact H | apply lgt_spec, G] | exact H].
Qed.

Lemma init_ok : forall zero tr0 rnd g K start s, (forall i j, rnd i j < length start) -> init zero tr0 rnd g K start = Val s -> wf (length start) s /\ hist_inv [] s.
Proof.
  intros zero tr0 rnd g K start s Hr Hi. unfold init in Hi.
  destruct (update_topology_ok rnd g (length start) K [] Hr) as (t & E & Ht).
  { intros _ Hl. split; [exact Hl|]. intros r l H. destruct r; discriminate. }
  rewrite E in Hi. cbn [obind] in Hi. injection Hi as <-. split.
  - split; [apply map_length|]. split; [|exact Ht]. intros p Hp. cbn in Hp. apply in_map_iff in Hp. destruct Hp as (x & <- & _). split; cbn; apply repeat_length.
  - split; [|split; cbn; [left; reflexivity | congruence]]. intros i p Hp. cbn [parts] in Hp. rewrite nth_error_map in Hp. destruct (nth_error start i); [|discriminate]. injection Hp as <-. cbn.
    split; [|split; [congruence | reflexivity]]. split; [left; reflexivity | intros x []].
Qed.

Theorem reach_inv : forall n s0 s h, reach d c eval plus s0 s h -> wf n s0 -> hist_inv [] s0 -> wf n s /\ hist_inv h s.
Proof.
  intros n s0 s h R W0 I0. induction R as [|s h rnd g K steer o s' R IH Hr Hm|s h ch sched s' R IH Hp He].
  - auto.
  - destruct IH as [W I]. destruct W as (Ln & W). rewrite Ln in Hr. destruct (move_ok rnd g K steer o n s (conj Ln W) Hr) as (s1 & E & W1 & G1 & S1).
    rewrite E in Hm. injection Hm as <-. split; [exact W1|]. destruct I as (I1 & I2 & I3). rewrite <- G1 in I2, I3. split; [|split; assumption].
    intros i q Hq. destruct (S1 _ _ Hq) as (p & Ep & (B1 & B2 & B3 & B4 & B5)). destruct (I1 _ _ Ep) as (J1 & J2 & J3). rewrite B1, B2, B4, B5. auto.
  - destruct IH as [W I]. destruct (evaluate_hist n ch sched s s' h W I Hp He) as (W' & I' & _). auto.
Qed.

Theorem reach_global : forall n s0 s h, reach d c eval plus s0 s h -> wf n s0 -> hist_inv [] s0 -> cur (gbest s0) = NegInf -> greatest (concat h) (cur (gbest s)).
Proof.
  intros n s0 s h R W0 I0 G0. induction R as [|s h rnd g K steer o s' R IH Hr Hm|s h ch sched s' R IH Hp He].
  - rewrite G0. split; [left; reflexivity | intros x []].
  - destruct (reach_inv _ _ _ _ R W0 I0) as [(Ln & W) _]. rewrite Ln in Hr. destruct (move_ok rnd g K steer o n s (conj Ln W) Hr) as (s1 & E & _ & G1 & _).
    rewrite E in Hm. injection Hm as <-. rewrite G1. exact IH.
  - destruct (reach_inv _ _ _ _ R W0 I0) as [W I]. destruct (evaluate_hist n ch sched s s' h W I Hp He) as (_ & _ & _ & G). apply G, IH.
Qed.

(** No step of an execution reads out of bounds. *)
Theorem evaluate_total : forall n s ch sched e, wf n s -> 0 < n -> Permutation (concat ch) (seq 0 (length (parts s))) -> evaluate eval ch sched s <> UB e.
Proof.
  intros n s ch sched e (Ln & _) Hn Hc. unfold evaluate. fold (start (parts s) ch).
  destruct (erun eval sched (start (parts s) ch)) as [k|] eqn:Er; [|discriminate]. destruct (finished k); [|discriminate].
  destruct (run_ex eval (parts s) _ _ _ _ (start_inv eval (parts s) ch Hc) Er) as (st & I & _).
  assert (B : besti k < length (parts s)). { destruct (i_besti _ _ _ _ I) as [->|[H _]]; [lia | exact H]. }
  destruct (nth_error_ex _ _ _ B) as [p Ep]. pose proof (i_parts _ _ _ _ I (besti k)) as P. rewrite Ep in P. rewrite P. cbn [option_map of_option obind].
  destruct (lgt _ _); discriminate.
Qed.
End Run.
