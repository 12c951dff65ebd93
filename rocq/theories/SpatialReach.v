(** Every state that a terminating history reaches satisfies the invariant. *)
From Coq Require Import List Bool Arith ZArith QArith Qcanon Lia Permutation.
From Verif Require Import Base ListUtil QcLra SpatialModel SpatialSpec SpatialGeom SpatialTree SpatialOps SpatialRemove SpatialQuery SpatialClosest.
Import ListNotations.
Local Open Scope Qc_scope.

Section Reach.
Variable n : nat.
Variable m : Qc.
Variable P : nat -> pos.

Lemma grow_mono : forall f x t r, grow n m f x t = Val r -> forall f', (f <= f')%nat -> grow n m f' x t = Val r.
Proof.
  induction f as [|f IH]; intros x t r H f' Hf; destruct f' as [|f']; try lia; auto; cbn [grow] in *;
  destruct (search x t) as [[p|]| |]; cbn [obind] in *; try discriminate; auto.
  destruct (double n m t); cbn [obind] in *; try discriminate. apply IH; auto; lia.
Qed.

Lemma place_mono : forall f x p t r, place n m P f x p t = Val r -> forall f', (f <= f')%nat -> place n m P f' x p t = Val r.
Proof.
  induction f as [|f IH]; intros x p t r H f' Hf; destruct f' as [|f']; try lia; auto; cbn [place] in *;
  (destruct (get_at p t) as [b|]; [|discriminate]); (destruct (0 <? cnt b)%Z; [|exact H]);
  (destruct (data b) as [|y l]; [discriminate|]);
  (destruct (negb (inside (small_box m (P y)) x)); [|exact H]); (destruct (snd (branch n m b)); [|exact H]); try discriminate.
  destruct (alter p (split n m P) t) as [a| |]; cbn [obind] in *; try discriminate.
  destruct (get_at p (fst a)) as [b'|]; [|discriminate]. destruct (search x b') as [[q|]| |]; cbn [obind] in *; try discriminate.
  apply IH; auto; lia.
Qed.

Lemma add_mono : forall f d t r, addData n m P f d t = Val r -> forall f', (f <= f')%nat -> addData n m P f' d t = Val r.
Proof.
  intros f d t r H f' Hf. unfold addData in *. destruct (grow n m f (P d) t) as [g| |] eqn:E; cbn [obind] in H; try discriminate.
  rewrite (grow_mono _ _ _ _ E f' Hf). cbn [obind]. destruct (get_at (snd g) (fst g)) as [b|]; [|discriminate].
  destruct (Qc_eq_bool (size b) m || (cnt b =? 0)%Z); [exact H|].
  destruct (place n m P f (P d) (snd g) (fst g)) as [q| |] eqn:E2; cbn [obind] in H; try discriminate.
  rewrite (place_mono _ _ _ _ _ E2 f' Hf). exact H.
Qed.

Lemma walk_box_mono : forall f a b st res r, walk_box P f a b st res = Val r -> forall f', (f <= f')%nat -> walk_box P f' a b st res = Val r.
Proof.
  induction f as [|f IH]; intros a b st res r H f' Hf.
  - destruct st; [destruct f'; exact H|discriminate].
  - destruct st as [|t st]; [destruct f'; exact H|]. destruct f' as [|f']; [lia|]. cbn [walk_box] in *.
    destruct (children t).
    + destruct (leaf_in_box P a b t); cbn [obind] in *; try discriminate. apply IH; auto; lia.
    + apply IH; auto; lia.
Qed.

Lemma walk_closest_mono : forall f q st best r, walk_closest P f q st best = Val r -> forall f', (f <= f')%nat -> walk_closest P f' q st best = Val r.
Proof.
  induction f as [|f IH]; intros q st best r H f' Hf.
  - destruct st; [destruct f'; exact H|discriminate].
  - destruct st as [|t st]; [destruct f'; exact H|]. destruct f' as [|f']; [lia|]. cbn [walk_closest] in *.
    destruct (children t).
    + destruct (all_data t); cbn [obind] in *; try discriminate. apply IH; auto; lia.
    + apply IH; auto; lia.
Qed.

Lemma some_point_mono : forall f p t r, some_point f p t = Val r -> forall f', (f <= f')%nat -> some_point f' p t = Val r.
Proof.
  induction f as [|f IH]; intros p t r H f' Hf; [discriminate|]. destruct f' as [|f']; [lia|]. cbn [some_point] in *.
  destruct (get_at p t) as [b|]; [|discriminate]. destruct (0 <? cnt b)%Z.
  - destruct (children b).
    + destruct (data b); [|exact H]. apply IH; auto; lia.
    + destruct (first_child (fun c => (0 <? cnt c)%Z) (t0 :: l) 0) as [[i c]|]; apply IH; auto; lia.
  - destruct (rev p); [discriminate|]. apply IH; auto; lia.
Qed.

Lemma closest_mono : forall f q t r, queryClosestPt P f q t = Val r -> forall f', (f <= f')%nat -> queryClosestPt P f' q t = Val r.
Proof.
  intros f q t r H f' Hf. unfold queryClosestPt in *. destruct (search q t) as [s| |]; cbn [obind] in *; try discriminate.
  destruct (some_point f (match s with Some p => p | None => [] end) t) as [d| |] eqn:E; cbn [obind] in H; try discriminate.
  rewrite (some_point_mono _ _ _ _ E f' Hf). cbn [obind].
  destruct (walk_closest P f q [smallest (ball_inside q (dist2 (P d) q)) t] (d, dist2 (P d) q)) as [x| |] eqn:E2; cbn [obind] in H; try discriminate.
  rewrite (walk_closest_mono _ _ _ _ _ E2 f' Hf). exact H.
Qed.

Lemma box_mono : forall f a b t r, queryDataInBox P f a b t = Val r -> forall f', (f <= f')%nat -> queryDataInBox P f' a b t = Val r.
Proof. unfold queryDataInBox. intros. eapply walk_box_mono; eauto. Qed.

Lemma call_mono : forall f o t r, call n m P f o t = Val r -> forall f', (f <= f')%nat -> call n m P f' o t = Val r.
Proof.
  intros f o t r H f' Hf. destruct o as [d|d| | |a b|q]; cbn [call] in *; auto.
  - destruct (addData n m P f d t) eqn:E; cbn [obind] in *; try discriminate. now rewrite (add_mono _ _ _ _ E f' Hf).
  - destruct (queryDataInBox P f a b t) eqn:E; cbn [obind] in *; try discriminate. now rewrite (box_mono _ _ _ _ _ E f' Hf).
  - destruct (queryClosestPt P f q t) eqn:E; cbn [obind] in *; try discriminate. now rewrite (closest_mono _ _ _ _ E f' Hf).
Qed.

Lemma calls_mono : forall l f t r, calls n m P f l t = Val r -> forall f', (f <= f')%nat -> calls n m P f' l t = Val r.
Proof.
  induction l as [|o l IH]; intros f t r H f' Hf; cbn [calls] in *; auto.
  destruct (call n m P f o t) as [a| |] eqn:E; cbn [obind] in *; try discriminate. rewrite (call_mono _ _ _ _ E f' Hf). cbn [obind].
  destruct (calls n m P f l (fst a)) as [b| |] eqn:E2; cbn [obind] in *; try discriminate. now rewrite (IH _ _ _ E2 f' Hf).
Qed.

Hypothesis Hm : 0 < m.
Hypothesis HP : forall d, length (P d) = n.

Lemma reach_ok : forall f l root answers, (forall o, In o l -> dims n o) -> calls n m P f l (init n m) = Val (root, answers) ->
  exists k, root_ok n m P k root.
Proof.
  intros f l root answers Hd H. destruct (init_ok n m P Hm) as [R0 P0].
  destruct (calls_ok n m P Hm HP l 0 (init n m) [] R0) as (N & [(t & a & S & k & E & R & _)|(E & _)]); auto; [now rewrite P0| |].
  - specialize (E (N + f)%nat ltac:(lia)). rewrite (calls_mono _ _ _ _ H (N + f)%nat ltac:(lia)) in E. injection E as <- <-. eauto.
  - specialize (E (N + f)%nat ltac:(lia)). rewrite (calls_mono _ _ _ _ H (N + f)%nat ltac:(lia)) in E. discriminate.
Qed.

Theorem box_query : forall f l root answers, (forall o, In o l -> dims n o) -> calls n m P f l (init n m) = Val (root, answers) ->
  forall qmin qmax, length qmin = n -> length qmax = n ->
  exists N r rest, (forall fuel, (N <= fuel)%nat -> queryDataInBox P fuel qmin qmax root = Val r) /\
    Permutation (points root) (r ++ rest) /\ (forall d, In d r -> in_closed qmin qmax (P d)) /\
    (forall d, In d rest -> in_closed qmin qmax (P d) -> touches m qmin qmax (P d)).
Proof.
  intros f l root answers Hd H a b Ha Hb. destruct (reach_ok f l root answers Hd H) as [k R].
  destruct (queryDataInBox_ok n m P Hm HP k root a b R Ha Hb) as (N & r & rest & E & P' & H1 & H2). exists N, r, rest. auto.
Qed.

Theorem box_sound : forall f l root answers, (forall o, In o l -> dims n o) -> calls n m P f l (init n m) = Val (root, answers) ->
  forall qmin qmax, length qmin = n -> length qmax = n ->
  exists N r rest, (forall fuel, (N <= fuel)%nat -> queryDataInBox P fuel qmin qmax root = Val r) /\
    Permutation (points root) (r ++ rest) /\ (forall d, In d r -> in_closed qmin qmax (P d)).
Proof.
  intros f l root answers Hd H a b Ha Hb.
  destruct (box_query f l root answers Hd H a b Ha Hb) as (N & r & rest & E & P' & H1 & _). exists N, r, rest. auto.
Qed.

Theorem closest_query : forall f l root answers, (forall o, In o l -> dims n o) -> calls n m P f l (init n m) = Val (root, answers) ->
  forall q, length q = n ->
  (points root <> [] -> exists N d, (forall fuel, (N <= fuel)%nat -> queryClosestPt P fuel q root = Val d) /\
     In d (points root) /\ forall e, In e (points root) -> sqdist (P d) q <= sqdist (P e) q) /\
  (points root = [] -> exists N, forall fuel, (N <= fuel)%nat -> queryClosestPt P fuel q root = UB NullDeref).
Proof.
  intros f l root answers Hd H q Hq. destruct (reach_ok f l root answers Hd H) as [k R]. split; intros Hp.
  - eapply queryClosestPt_ok; eauto.
  - eapply queryClosestPt_empty; eauto.
Qed.

Theorem remove_stored : forall f l root answers, (forall o, In o l -> dims n o) -> calls n m P f l (init n m) = Val (root, answers) ->
  forall d, In d (points root) -> ~ touches_grid m (P d) ->
  exists root', removeData P d root = Val (root', true) /\ Permutation (points root) (d :: points root').
Proof.
  intros f l root answers Hd H d Hin Hg. destruct (reach_ok f l root answers Hd H) as [k R].
  destruct (removeData_ok n m P Hm HP k root d R) as [(_ & Hn)|[(_ & Hn)|(t' & E & _ & P')]]; [now destruct Hn| |].
  - exfalso. auto.
  - eauto.
Qed.
End Reach.
