(** The properties of the swarm, put together from the lemmas. *)
From Coq Require Import ZArith List Bool Arith Lia Permutation Sorted.
From Verif Require Import Base ListUtil AssignSpec OspaModel PsoModel PsoSpec PsoProofs PsoProofs2 PsoProofs3 PsoProofs4 PsoProofs5.
Import ListNotations.
Local Open Scope nat_scope.

Lemma best_all : forall (A Tr : Type) (d : A -> A -> Z) c eval plus zero (tr0 : Tr) rnd g K start s0 s h,
  init zero tr0 rnd g K start = Val s0 -> (forall i j, rnd i j < length start) -> reach d c eval plus s0 s h ->
  (forall i p, nth_error (parts s) i = Some p -> greatest (column i h) (best p) /\ (best p <> NegInf -> eval (btraj p) (blms p) = best p) /\
     length (vel p) = length (lms p) /\ length (bvel p) = length (blms p)) /\
  greatest (concat h) (cur (gbest s)) /\ (cur (gbest s) <> NegInf -> eval (traj (gbest s)) (lms (gbest s)) = cur (gbest s)).
Proof.
  intros A Tr d c eval plus zero tr0 rnd g K start s0 s h Hi Hr R.
  destruct (init_ok eval zero tr0 rnd g K start s0 Hr Hi) as [W0 I0].
  destruct (reach_inv d c eval plus _ _ _ _ R W0 I0) as [(_ & W & _) (I1 & _ & I3)].
  split; [|split; [|exact I3]].
  - intros i p Hp. destruct (I1 i p Hp) as (G1 & G2 & _). destruct (W p (nth_error_In _ _ Hp)). auto.
  - apply (reach_global d c eval plus _ _ _ _ R W0 I0). unfold init in Hi. destruct (updateTopology _ _ _ _ _); [|discriminate|discriminate]. injection Hi as <-. reflexivity.
Qed.

Lemma runs_on : forall (A Tr : Type) (d : A -> A -> Z) c eval plus zero (tr0 : Tr) rnd g K start s0 s h,
  init zero tr0 rnd g K start = Val s0 -> (forall i j, rnd i j < length start) -> start <> [] -> reach d c eval plus s0 s h ->
  (forall rnd' g' K' steer o, (forall i j, rnd' i j < length start) -> exists s', moveParticles d c plus rnd' g' K' steer o s = Val s') /\
  (forall ch sched e, Permutation (concat ch) (seq 0 (length start)) -> evaluate eval ch sched s <> UB e).
Proof.
  intros A Tr d c eval plus zero tr0 rnd g K start s0 s h Hi Hr Hn R.
  destruct (init_ok eval zero tr0 rnd g K start s0 Hr Hi) as [W0 I0].
  destruct (reach_inv d c eval plus _ _ _ _ R W0 I0) as [W _]. split.
  - intros rnd' g' K' steer o Hr'. destruct (move_ok d c plus rnd' g' K' steer o _ s W Hr') as (s' & E & _). eauto.
  - intros ch sched e Hc. apply (evaluate_total eval (length start)); [exact W | destruct start; [congruence | cbn; lia] | destruct W as [-> _]; exact Hc].
Qed.

Lemma random_exact : forall rnd n K t0, (forall i j, rnd i j < n) ->
  exists t, updateTopology rnd false n K t0 = Val t /\ length t = n /\
    forall r l, nth_error t r = Some l -> exists tl, l = r :: tl /\ StronglySorted lt tl /\
      forall x, In x tl <-> (x < n /\ exists j, j < K /\ rnd x j = r) /\ (x <> r \/ exists y, y < r /\ y < n /\ exists j, j < K /\ rnd y j = r).
Proof.
  intros rnd n K t0 Hr. destruct (random_topology rnd n K t0 Hr) as (t & E & L & H). exists t. split; [exact E|]. split; [exact L|].
  intros r l Hl. destruct (H r l Hl) as (tl & E1 & E2 & E3). exists tl. split; [exact E1|]. split; [exact E2|]. exact E3.
Qed.

Lemma topology_valid : forall rnd g n K t0, (forall i j, rnd i j < n) -> (t0 = [] \/ topology_ok n t0) ->
  exists t, updateTopology rnd g n K t0 = Val t /\ topology_ok n t.
Proof.
  intros rnd g n K t0 Hr H0. apply update_topology_ok; [exact Hr|]. intros _ Hl. destruct H0 as [->|H0]; [|exact H0].
  split; [exact Hl|]. intros r l H. destruct r; discriminate.
Qed.

Lemma times_order : forall (I M : Type) itime mtime (b : batch (I := I) (M := M)), built itime mtime b ->
  (times b = map itime (inputs b) \/ times b = 0%Z :: map itime (inputs b)) /\
  forall z, (exists k l, nth_error (times b) k = Some (mtime z) /\ nth_error (zs b) k = Some l /\
               addMeasurement mtime z b = Val (BT (inputs b) (times b) (upd (zs b) k (l ++ [z])))) \/
            addMeasurement mtime z b = UB Aborted \/ addMeasurement mtime z b = UB BadIterator.
Proof.
  intros I M itime mtime b Hb. split.
  - destruct (built_sized itime mtime b Hb) as [_ [H|(us & <- & H)]]; auto.
  - intro z. destruct (measurement_outcomes itime mtime b z Hb) as [(b' & E)|H]; [left|right; exact H].
    destruct (measurement_right_time itime mtime b z b' Hb E) as (k & l & H1 & H2 & ->). exists k, l. auto.
Qed.

Lemma neighbour_full : forall (A Tr : Type) (ps : list (part (A := A) (Tr := Tr))) i p tp, nth_error ps i = Some p -> In i tp -> (forall x, In x tp -> x < length ps) ->
  exists b, neighbour ps i tp = Val b /\
    ((b = i /\ forall x q, In x tp -> nth_error ps x = Some q -> lle (cur q) (best p)) \/
     (In b tp /\ exists q, nth_error ps b = Some q /\ lgt (cur q) (best p) = true /\ forall x r, In x tp -> nth_error ps x = Some r -> lle (cur r) (cur q))) /\
    ((forall x q, In x tp -> nth_error ps x = Some q -> cur q = best q) ->
     exists q, nth_error ps b = Some q /\ forall x r, In x tp -> nth_error ps x = Some r -> lle (best r) (best q)).
Proof.
  intros A Tr ps i p tp Hp Hi Ht. destruct (neighbour_ok ps i p tp Hp Ht) as (b & E & C). exists b. split; [exact E|]. split; [exact C|].
  intro Hall. destruct C as [[-> C]|(Hb & q & Eq & _ & C)].
  - exists p. split; [exact Hp|]. intros x r Hx Hr. rewrite <- (Hall x r Hx Hr). apply (C x r Hx Hr).
  - exists q. split; [exact Eq|]. intros x r Hx Hr. rewrite <- (Hall x r Hx Hr), <- (Hall b q Hb Eq). apply (C x r Hx Hr).
Qed.

Lemma global_full : forall rnd n K t0, length t0 <> n ->
  exists t, updateTopology rnd true n K t0 = Val t /\ length t = n /\ forall r l, nth_error t r = Some l -> l = seq 0 n.
Proof.
  intros rnd n K t0 H. unfold updateTopology. apply Nat.eqb_neq in H. rewrite H. eexists. split; [reflexivity|]. split; [rewrite map_length, seq_length; reflexivity|].
  intros r l Hl. rewrite nth_error_map in Hl. destruct (nth_error (seq 0 n) r); [|discriminate]. injection Hl as <-. reflexivity.
Qed.


(** When the topology is redrawn. *)
Lemma move_one_rest : forall {A Tr : Type} (d : A -> A -> Z) c plus steer o i (s s' : pso (A := A) (Tr := Tr)), move_one d c plus steer o i s = Val s' ->
  improved s' = improved s /\ topo s' = topo s.
Proof.
  intros A Tr d c plus steer o i s s' H. unfold move_one in H.
  repeat match type of H with
  | obind ?e _ = Val _ => destruct e; cbn [obind] in H; try discriminate
  | (let _ := _ in _) = Val _ => cbn zeta in H
  | (if ?b then _ else _) = Val _ => destruct b; try discriminate
  end; injection H as <-; auto.
Qed.
Lemma moves_rest : forall {A Tr : Type} (d : A -> A -> Z) c plus steer o k j (s s' : pso (A := A) (Tr := Tr)), Loop.for_from (move_one d c plus steer o) j k s = Val s' ->
  improved s' = improved s /\ topo s' = topo s.
Proof.
  intros A Tr d c plus steer o. induction k as [|k IH]; intros j s s' H; cbn [Loop.for_from] in H; [injection H as <-; auto|].
  destruct (move_one d c plus steer o j s) as [s1|e|] eqn:E; cbn [obind] in H; try discriminate.
  destruct (move_one_rest _ _ _ _ _ _ _ _ E) as [A1 A2]. destruct (IH _ _ _ H) as [B1 B2]. split; congruence.
Qed.
Lemma move_rest : forall {A Tr : Type} (d : A -> A -> Z) c plus rnd g K steer o (s s' : pso (A := A) (Tr := Tr)), moveParticles d c plus rnd g K steer o s = Val s' ->
  improved s' = improved s /\ (if improved s then topo s' = topo s else updateTopology rnd g (length (parts s)) K (topo s) = Val (topo s')).
Proof.
  intros A Tr d c plus rnd g K steer o s s' H. unfold moveParticles in H. destruct (improved s) eqn:I.
  - cbn [obind] in H. apply moves_rest in H. exact H.
  - destruct (updateTopology rnd g (length (parts s)) K (topo s)) as [t|e|]; cbn [obind] in H; try discriminate. apply moves_rest in H as [H1 H2]. cbn [improved topo] in *.
    split; [exact H1|congruence].
Qed.
Lemma greatest_unique : forall l a b, greatest l a -> greatest l b -> a = b.
Proof.
  intros l a b [A1 A2] [B1 B2].
  assert (lle a b) by (destruct A1 as [->|A1]; [exact I|auto]). assert (lle b a) by (destruct B1 as [->|B1]; [exact I|auto]).
  destruct a, b; cbn in *; try contradiction; auto. f_equal. lia.
Qed.
Theorem redraw : forall (A Tr : Type) (d : A -> A -> Z) c eval plus zero (tr0 : Tr) rnd g K start s0 s h,
  init zero tr0 rnd g K start = Val s0 -> (forall i j, rnd i j < length start) -> reach d c eval plus s0 s h ->
  forall rnd' g' K' steer o s', moveParticles d c plus rnd' g' K' steer o s = Val s' ->
  forall v v', greatest (concat h) v -> greatest (concat (tl h)) v' ->
  if lgt v v' then topo s' = topo s else updateTopology rnd' g' (length (parts s)) K' (topo s) = Val (topo s').
Proof.
  intros A Tr d c eval plus zero tr0 rnd g K start s0 s h H0 Hr R rnd' g' K' steer o s' Hm v v' Hv Hv'.
  assert (E : improved s = lgt v v').
  { clear Hm s' rnd' g' K' steer o. revert v v' Hv Hv'. induction R as [|s h rnd1 g1 K1 steer o s' R IH Hr1 Hm|s h ch sched s' R IH P E]; intros v v' Hv Hv'.
    - cbn in Hv, Hv'. rewrite <- (greatest_unique _ _ _ Hv Hv'). unfold init in H0. destruct (updateTopology rnd g (length start) K []) as [t|e|]; cbn [obind] in H0; try discriminate.
      injection H0 as <-. cbn [improved]. destruct v; cbn; [reflexivity|]. symmetry. apply Z.ltb_irrefl.
    - destruct (move_rest _ _ _ _ _ _ _ _ _ _ Hm) as [-> _]. now apply IH.
    - cbn [tl] in Hv'. assert (B0 := best_all _ _ _ _ _ _ _ _ _ _ _ _ _ _ _ H0 Hr R). destruct B0 as (_ & B0 & _).
      assert (B1 := best_all _ _ _ _ _ _ _ _ _ _ _ _ _ _ _ H0 Hr (reach_eval _ _ _ _ _ _ _ _ _ _ R P E)). destruct B1 as (_ & B1 & _).
      rewrite (greatest_unique _ _ _ Hv B1), (greatest_unique _ _ _ Hv' B0). clear - E.
      unfold evaluate in E. destruct (erun eval sched _) as [k|]; [|discriminate]. destruct (finished k); [|discriminate].
      destruct (nth_error (eparts k) (besti k)) as [b|]; cbn [of_option obind] in E; [|discriminate].
      destruct (lgt (cur b) (cur (gbest s))) eqn:L; injection E as <-; cbn [improved gbest]; [now rewrite L|].
      destruct (cur (gbest s)); cbn; [reflexivity|]. symmetry. apply Z.ltb_irrefl. }
  apply move_rest in Hm as [_ Hm]. rewrite <- E. exact Hm.
Qed.
Theorem redraw_spec : forall (A Tr : Type) (d : A -> A -> Z) c eval plus zero (tr0 : Tr) rnd g K start s0 s h,
  init zero tr0 rnd g K start = Val s0 -> (forall i j, rnd i j < length start) -> reach d c eval plus s0 s h ->
  forall rnd' g' K' steer o s', moveParticles d c plus rnd' g' K' steer o s = Val s' ->
  forall v v', greatest (concat h) v -> greatest (concat (tl h)) v' ->
  (~ lle v v' -> topo s' = topo s) /\ (lle v v' -> updateTopology rnd' g' (length (parts s)) K' (topo s) = Val (topo s')).
Proof.
  intros A Tr d c eval plus zero tr0 rnd g K start s0 s h H0 Hr R rnd' g' K' steer o s' Hm v v' Hv Hv'.
  assert (E := redraw A Tr d c eval plus zero tr0 rnd g K start s0 s h H0 Hr R rnd' g' K' steer o s' Hm v v' Hv Hv').
  destruct (lgt v v') eqn:L; split; intros C; try exact E; exfalso; destruct v, v'; cbn in *; try discriminate; try tauto;
    try (apply Z.ltb_lt in L; lia); try (apply Z.ltb_ge in L; lia).
Qed.
