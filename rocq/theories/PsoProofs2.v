(** The topology, and the neighbour a particle is attracted to. *)
From Coq Require Import ZArith List Bool Arith Lia Permutation Sorted.
From Verif Require Import Base ListUtil Loop PsoModel PsoSpec PsoProofs.
Import ListNotations.
Local Open Scope nat_scope.

Lemma last_snoc : forall {B} (l : list B) x z, last (l ++ [x]) z = x.
Proof. intros. induction l as [|a l IH]; [reflexivity|]. cbn. destruct (l ++ [x]) eqn:E; [destruct l; discriminate | exact IH]. Qed.

Lemma sorted_snoc : forall l x, StronglySorted lt l -> (forall y, In y l -> y < x) -> StronglySorted lt (l ++ [x]).
Proof.
  induction l as [|a l IH]; intros x Hs Hx; cbn; [repeat constructor|]. inversion Hs; subst. constructor.
  - apply IH; [assumption | intros; apply Hx; right; assumption].
  - apply Forall_app. split; [assumption | repeat constructor; apply Hx; left; reflexivity].
Qed.

Lemma sorted_last : forall l x y, StronglySorted lt (l ++ [x]) -> In y (l ++ [x]) -> y <= x.
Proof.
  induction l as [|a l IH]; intros x y Hs Hy; cbn in *; [destruct Hy as [->|[]]; lia|]. inversion Hs; subst. destruct Hy as [->|Hy]; [|apply IH; assumption].
  rewrite Forall_forall in H2. specialize (H2 x). rewrite in_app_iff in H2. specialize (H2 ltac:(cbn; tauto)). lia.
Qed.

Definition tail_of (r : nat) (P : nat -> Prop) (tl : list nat) : Prop :=
  StronglySorted lt tl /\ forall x, In x tl <-> P x /\ (x <> r \/ exists y, y < r /\ P y).

Lemma tail_push : forall r P tl i, tail_of r P tl -> (forall x, P x -> x <= i) ->
  tail_of r (fun x => P x \/ x = i) (if last (r :: tl) i =? i then tl else tl ++ [i]).
Proof.
  intros r P tl i [Hs HP] Hle.
  destruct tl as [|a tl0] using rev_ind; [|clear IHtl0].
  - cbn [last]. destruct (Nat.eqb_spec r i) as [->|Hn].
    + split; [constructor|]. intro x. cbn. split; [tauto|]. intros [[Hx| ->] Hor].
      * exfalso. apply (HP x). split; [exact Hx|]. destruct Hor as [Hor|(y & Hy & [Hy'| ->])]; [left; exact Hor | right; eauto | lia].
      * exfalso. destruct Hor as [Hor|(y & Hy & [Hy'| ->])]; [congruence | apply (HP y); split; [exact Hy' | left; lia] | lia].
    + split; [repeat constructor|]. intro x. cbn. split.
      * intros [<-|[]]. split; [right; reflexivity | left; congruence].
      * intros [[Hx| ->] Hor]; [|left; reflexivity]. exfalso. destruct Hor as [Hor|(y & Hy & [Hy'| ->])].
        -- apply (HP x). split; [exact Hx | left; exact Hor].
        -- apply (HP y). split; [exact Hy' | left; lia].
        -- destruct (Nat.eq_dec x r) as [->|Hxr]; [specialize (Hle r Hx); lia | apply (HP x); split; [exact Hx | left; exact Hxr]].
  - rewrite app_comm_cons. rewrite last_snoc.
    assert (Ha : P a) by (apply HP; rewrite in_app_iff; cbn; tauto).
    destruct (Nat.eqb_spec a i) as [->|Hn].
    + split; [exact Hs|]. intro x. rewrite HP. split; [intros [H1 [H2|(y & H2 & H3)]]; (split; [left; exact H1|]); [left; exact H2 | right; exists y; tauto]|].
      intros [[Hx|Hx] Hor]; (split; [subst; assumption|]); (destruct Hor as [Hor|(y & Hy & [Hy'|Hy'])]; [left; exact Hor | right; eauto | right; exists i; subst; tauto]).
    + assert (Hai : a < i) by (specialize (Hle a Ha); lia).
      assert (Hlt : forall y, In y (tl0 ++ [a]) -> y < i) by (intros y Hy; pose proof (sorted_last _ _ _ Hs Hy); lia).
      split; [apply sorted_snoc; assumption|]. intro x. rewrite (in_app_iff _ [i]), HP. split.
      * intros [[H1 [H2|(y & H2 & H3)]]|[<-|[]]]; [split; [left; exact H1|]; left; exact H2 | split; [left; exact H1|]; right; exists y; tauto|].
        split; [right; reflexivity|]. destruct (Nat.eq_dec i r) as [->|]; [right; exists a; tauto | left; assumption].
      * intros [[Hx| ->] Hor]; [left|right; left; reflexivity]. split; [exact Hx|]. destruct Hor as [Hor|(y & Hy & [Hy'| ->])]; [left; exact Hor | right; eauto|].
        destruct (Nat.eq_dec x r) as [->|]; [specialize (Hle r Hx); lia | left; assumption].
Qed.

Lemma tail_iff : forall r P Q tl, tail_of r P tl -> (forall x, P x <-> Q x) -> tail_of r Q tl.
Proof.
  intros r P Q tl [Hs HP] H. split; [exact Hs|]. intro x. rewrite HP, H. split; intros [H1 [H2|(y & H2 & H3)]]; split; auto; right; exists y; (split; [exact H2 | apply H, H3]).
Qed.

(** Particle x informs particle r. *)
Definition informs (rnd : nat -> nat -> nat) (n K r x : nat) : Prop := x < n /\ exists j, j < K /\ rnd x j = r.

Theorem random_topology : forall rnd n K t0, (forall i j, rnd i j < n) ->
  exists t, updateTopology rnd false n K t0 = Val t /\ length t = n /\
    forall r l, nth_error t r = Some l -> exists tl, l = r :: tl /\ tail_of r (informs rnd n K r) tl.
Proof.
  intros rnd n K t0 Hr. unfold updateTopology.
  set (cond := fun (i j r x : nat) => (x < i /\ exists j', j' < K /\ rnd x j' = r) \/ (x = i /\ exists j', j' < j /\ rnd i j' = r)).
  set (J := fun (i j : nat) (t : list (list nat)) => length t = n /\ forall r l, nth_error t r = Some l -> exists tl, l = r :: tl /\ tail_of r (cond i j r) tl).
  destruct (for_inv (fun i t => J i 0 t) (fun i => for_ K (inform rnd i)) n (map (fun i => [i]) (seq 0 n))) as (t & Et & [Lt Ht]).
  - split; [rewrite map_length, seq_length; reflexivity|]. intros r l Hl. rewrite nth_error_map in Hl.
    destruct (nth_error (seq 0 n) r) as [r'|] eqn:E; [|discriminate]. cbn in Hl. injection Hl as <-.
    assert (r' = r). { pose proof (nth_error_lt _ _ _ _ E) as L. rewrite seq_length in L. rewrite (nth_error_nth' _ 0) in E by (rewrite seq_length; exact L). rewrite seq_nth in E by exact L. cbn in E. congruence. }
    subst r'. exists []. split; [reflexivity|]. split; [constructor|]. intro x. unfold cond. cbn. split; [tauto|]. intros [[[H _]|[_ (j & H & _)]] _]; lia.
  - intros i t Hi HJ.
    destruct (for_inv (fun j t => J i j t) (inform rnd i) K t HJ) as (t' & Et' & [Lt' Ht']).
    + intros j u Hj [Lu Hu]. unfold inform.
      destruct (nth_error_ex _ u (rnd i j) ltac:(rewrite Lu; apply Hr)) as [l El]. rewrite El. cbn [of_option obind].
      destruct (Hu _ _ El) as (tl & -> & Htl).
      assert (Hle : forall x, cond i j (rnd i j) x -> x <= i) by (unfold cond; intros x [[H _]|[-> _]]; lia).
      pose proof (tail_push _ _ _ _ Htl Hle) as Hp.
      assert (Hc : forall x, (cond i j (rnd i j) x \/ x = i) <-> cond i (S j) (rnd i j) x).
      { intro x. unfold cond. split.
        - intros [[H|[-> (j' & Hj' & E)]]| ->]; [left; exact H | right; split; [reflexivity|]; exists j'; split; [lia | exact E] | right; split; [reflexivity|]; exists j; split; [lia | reflexivity]].
        - intros [H|[-> _]]; [left; left; exact H | right; reflexivity]. }
      apply (fun H => tail_iff _ _ _ _ H Hc) in Hp.
      assert (Hoth : forall r l, r <> rnd i j -> nth_error u r = Some l -> exists tl, l = r :: tl /\ tail_of r (cond i (S j) r) tl).
      { intros r l Hne Hl. destruct (Hu _ _ Hl) as (tl' & -> & H). exists tl'. split; [reflexivity|]. eapply tail_iff; [exact H|]. intro x. unfold cond. split.
        - intros [H'|[-> (j' & Hj' & E)]]; [left; exact H' | right; split; [reflexivity|]; exists j'; split; [lia | exact E]].
        - intros [H'|[-> (j' & Hj' & E)]]; [left; exact H' | right; split; [reflexivity|]; exists j'; split; [|exact E]].
          destruct (Nat.eq_dec j' j) as [->|]; [congruence | lia]. }
      destruct (last (rnd i j :: tl) i =? i).
      * exists u. split; [reflexivity|]. split; [exact Lu|]. intros r l Hl. destruct (Nat.eq_dec r (rnd i j)) as [->|Hne]; [|apply Hoth; assumption].
        rewrite El in Hl. injection Hl as <-. exists tl. auto.
      * eexists. split; [reflexivity|]. split; [rewrite upd_length; exact Lu|]. intros r l Hl. destruct (Nat.eq_dec r (rnd i j)) as [->|Hne].
        -- rewrite nth_error_upd_eq in Hl by (rewrite Lu; apply Hr). injection Hl as <-. exists (tl ++ [i]). auto.
        -- rewrite nth_error_upd_neq in Hl by congruence. apply Hoth; assumption.
    + exists t'. split; [exact Et'|]. split; [exact Lt'|]. intros r l Hl. destruct (Ht' _ _ Hl) as (tl & -> & H). exists tl. split; [reflexivity|].
      eapply tail_iff; [exact H|]. intro x. unfold cond. split.
      * intros [[H1 H2]|[-> H2]]; left; (split; [lia | exact H2]).
      * intros [[H1 H2]|[-> (j' & H2 & _)]]; [|lia]. destruct (Nat.eq_dec x i) as [->|]; [right; split; [reflexivity | exact H2] | left; split; [lia | exact H2]].
  - exists t. split; [exact Et|]. split; [exact Lt|]. intros r l Hl. destruct (Ht _ _ Hl) as (tl & -> & H). exists tl. split; [reflexivity|].
    eapply tail_iff; [exact H|]. intro x. unfold cond, informs. split; [|left; assumption]. intros [H1|[-> (j' & H2 & _)]]; [exact H1 | lia].
Qed.

Lemma random_ok : forall rnd n K t0, (forall i j, rnd i j < n) -> exists t, updateTopology rnd false n K t0 = Val t /\ topology_ok n t.
Proof.
  intros rnd n K t0 Hr. destruct (random_topology rnd n K t0 Hr) as (t & E & L & H). exists t. split; [exact E|]. split; [exact L|].
  intros r l Hl. destruct (H _ _ Hl) as (tl & -> & _ & Ht). split; [left; reflexivity|].
  intros x [<-|Hx]; [apply nth_error_lt in Hl; lia | apply Ht in Hx; apply Hx].
Qed.

Theorem update_topology_ok : forall rnd g n K t0, (forall i j, rnd i j < n) -> (g = true -> length t0 = n -> topology_ok n t0) ->
  exists t, updateTopology rnd g n K t0 = Val t /\ topology_ok n t.
Proof.
  intros rnd [] n K t0 Hr H0; [|apply random_ok, Hr]. unfold updateTopology. destruct (Nat.eqb_spec (length t0) n) as [E|E].
  - exists t0. auto.
  - eexists. split; [reflexivity|]. split; [rewrite map_length, seq_length; reflexivity|]. intros r l Hl.
    pose proof (nth_error_lt _ _ _ _ Hl) as L. rewrite map_length, seq_length in L.
    rewrite nth_error_map in Hl. destruct (nth_error (seq 0 n) r); [|discriminate]. injection Hl as <-.
    split; [apply in_seq; lia | intros x Hx; apply in_seq in Hx; lia].
Qed.

(** ** Neighbour *)
Section Neighbour.
Context {A Tr : Type}.
Notation part := (part (A := A) (Tr := Tr)).
Variable ps : list part.

Lemma neighbour_loop : forall tp b v, (forall x, In x tp -> x < length ps) ->
  exists b' v', fold_left (fun s n => let* s' := s in neighbour_step ps n s') tp (Val (b, v)) = Val (b', v') /\
    lle v v' /\ ((b' = b /\ v' = v) \/ (lgt v' v = true /\ In b' tp /\ exists q, nth_error ps b' = Some q /\ cur q = v')) /\
    forall x q, In x tp -> nth_error ps x = Some q -> lle (cur q) v'.
Proof.
  induction tp as [|x tp IH]; intros b v Hx.
  - exists b, v. split; [reflexivity|]. split; [apply lle_refl|]. split; [left; auto | intros ? ? []].
  - destruct (nth_error_ex _ ps x (Hx x (or_introl eq_refl))) as [q Eq].
    cbn [fold_left obind]. unfold neighbour_step at 2. rewrite Eq. cbn [of_option obind snd].
    destruct (lgt (cur q) v) eqn:G.
    + destruct (IH x (cur q) ltac:(intros; apply Hx; right; assumption)) as (b' & v' & E & L & C & M). exists b', v'. split; [exact E|].
      assert (Hg : lgt v' v = true /\ lle v v').
      { destruct (lgt v' v) eqn:G'; [split; [reflexivity | apply lgt_true, G']|]. apply lgt_spec in G'. apply lgt_true in G. exfalso.
        apply G. apply lle_anti; [eapply lle_trans; [exact L | exact G'] | apply G]. }
      split; [apply Hg|]. split.
      * right. split; [apply Hg|]. destruct C as [[-> ->]|(C1 & C2 & C3)]; [split; [left; reflexivity | eauto] | split; [right; exact C2 | exact C3]].
      * intros y r [<-|Hy] Er; [rewrite Eq in Er; injection Er as <-; exact L | eapply M; eassumption].
    + destruct (IH b v ltac:(intros; apply Hx; right; assumption)) as (b' & v' & E & L & C & M). exists b', v'. split; [exact E|]. split; [exact L|]. split.
      * destruct C as [C|(C1 & C2 & C3)]; [left; exact C | right; split; [exact C1|]; split; [right; exact C2 | exact C3]].
      * intros y r [<-|Hy] Er; [rewrite Eq in Er; injection Er as <-; eapply lle_trans; [apply lgt_spec, G | exact L] | eapply M; eassumption].
Qed.

Theorem neighbour_ok : forall i p tp, nth_error ps i = Some p -> (forall x, In x tp -> x < length ps) ->
  exists b, neighbour ps i tp = Val b /\
    ((b = i /\ forall x q, In x tp -> nth_error ps x = Some q -> lle (cur q) (best p)) \/
     (In b tp /\ exists q, nth_error ps b = Some q /\ lgt (cur q) (best p) = true /\ forall x r, In x tp -> nth_error ps x = Some r -> lle (cur r) (cur q))).
Proof.
  intros i p tp Hp Ht. destruct (neighbour_loop tp i (best p) Ht) as (b & v & E & L & C & M). unfold neighbour. rewrite Hp. cbn [of_option obind]. rewrite E.
  exists b. split; [reflexivity|]. destruct C as [[-> ->]|(C1 & C2 & q & Eq & <-)]; [left; auto | right]. split; [exact C2|]. exists q. auto.
Qed.
End Neighbour.
