(** C38: JCBB. *)
From Coq Require Import List Bool Arith QArith Qcanon Lia.
From Verif Require Import Base ListUtil QcLra JCBBModel JCBBSpec JCBBProofs.
Import ListNotations.
Local Open Scope nat_scope.

(** Two orders in which the queue may hand out its nodes. *)
Definition newest (q : list node) : nat := length q - 1.
Definition oldest (q : list node) : nat := 0.

(** C38: what holds of every returned hypothesis.  Distinct landmarks for all measurements but
    the first; every association passes a joint test that counts the associations before it
    except that of the first measurement; no hypothesis of this kind has more than two
    associations more.  Missing for the full claim: distinctness for the first measurement, the
    number of degrees of freedom counting all associations, and maximality. *)
Theorem C38_result_partial : forall nZ nL unc jd thr pick fuel h,
  jcbb nZ nL unc jd thr pick fuel = Val h ->
  length h = nZ /\ compatible nL jd thr late_count h /\ NoDup (landmarks (tl h)) /\
  forall g, length g <= nZ -> compatible nL jd thr late_count g -> NoDup (landmarks (tl g)) ->
    length (landmarks g) <= length (landmarks h) + 2.
Proof. exact jcbb_facts. Qed.
Print Assumptions C38_result_partial.

Example C38_result_example :
  jcbb 3 3 false (fun h m => if m =? length h then QcN (length h) else QcN 20) (fun k => QcN (4 * k)) newest 100
  = Val [Some 0; Some 1; Some 2].
Proof. vm_compute. reflexivity. Qed.

(** C38: the search ends and returns a hypothesis, in whatever order the queue hands out its
    nodes, after at most as many steps as the full tree has inner nodes, if the map has no
    cross-covariances and the robot is certain or there are at most two measurements, and if some
    association is compatible. *)
Theorem C38_total_partial : forall nZ nL unc jd thr pick fuel,
  0 < nZ -> unc = false \/ nZ <= 2 ->
  (forall q, q <> [] -> pick q < length q) -> tree_nodes nL nZ <= fuel ->
  (exists g m, In m (landmarks g) /\ length g <= nZ /\ compatible nL jd thr late_count g /\
               NoDup (landmarks (tl g))) ->
  exists h, jcbb nZ nL unc jd thr pick fuel = Val h.
Proof. exact jcbb_total. Qed.
Print Assumptions C38_total_partial.

Example C38_total_example :
  (forall q, q <> [] -> newest q < length q) /\ tree_nodes 3 3 = 21 /\
  (exists g m, In m (landmarks g) /\ length g <= 3 /\
     compatible 3 (fun _ _ => 0%Qc) (fun _ => 1%Qc) late_count g /\ NoDup (landmarks (tl g))).
Proof.
  split; [|split; [reflexivity|]].
  - intros [|x q] H; [congruence|]. unfold newest. cbn. lia.
  - exists [Some 2], 2. split; [left; reflexivity|]. split; [cbn; lia|]. split; [|constructor].
    intros p m r E. destruct p as [|a [|b p]]; cbn in E; inversion E; subst.
    split; [lia|reflexivity].
Qed.

(** C38 is false: the first measurement and a later one share a landmark. *)
Theorem C38_distinct_refuted : exists nZ nL jd thr pick fuel h,
  jcbb nZ nL false jd thr pick fuel = Val h /\ ~ one_to_one h.
Proof.
  exists 2, 1, (fun h _ => match h with [Some _] => QcN 2 | _ => 1%Qc end), (fun _ => QcN 10), newest, 10,
    [Some 0; Some 0].
  split; [vm_compute; reflexivity|].
  intros H. inversion H; subst. apply H2. left. reflexivity.
Qed.
Print Assumptions C38_distinct_refuted.

(** C38 is false: a compatible one-to-one hypothesis has two more associations than the
    returned one, all distances being zero. *)
Theorem C38_max_refuted : exists nZ nL jd thr pick fuel h g,
  jcbb nZ nL false jd thr pick fuel = Val h /\ length g = nZ /\ one_to_one g /\
  compatible nL jd thr full_count g /\ length (landmarks g) = length (landmarks h) + 2.
Proof.
  exists 2, 2, (fun _ _ => 0%Qc), (fun _ => 1%Qc), oldest, 30, [None; None], [Some 0; Some 1].
  split; [vm_compute; reflexivity|]. split; [reflexivity|]. split; [|split; [|reflexivity]].
  - constructor; [intros [H|[]]; discriminate|]. constructor; [intros []|constructor].
  - intros p m r E. destruct p as [|a [|b [|c p]]]; cbn in E; inversion E; subst; split;
      try lia; reflexivity.
Qed.
Print Assumptions C38_max_refuted.

(** The same with distances that differ: an outlier replaces the better hypothesis, and whether
    it does depends on the order of addresses in the queue. *)
Theorem C38_order_refuted : exists nZ nL jd thr fuel h g,
  jcbb nZ nL false jd thr newest fuel = Val h /\ jcbb nZ nL false jd thr oldest fuel = Val g /\
  one_to_one g /\ compatible nL jd thr full_count g /\ length (landmarks h) < length (landmarks g).
Proof.
  exists 3, 3, (fun h m => match h, m with
    | [None], 0 => QcN 5 | [None], 1 => QcN 1 | [Some 1; None], 2 => QcN 2 | _, _ => QcN 100 end),
    (fun _ => QcN 10), 50, [None; Some 0; None], [None; Some 1; Some 2].
  split; [vm_compute; reflexivity|]. split; [vm_compute; reflexivity|]. split; [|split; [|cbn; lia]].
  - constructor; [intros [H|[]]; discriminate|]. constructor; [intros []|constructor].
  - intros p m r E. destruct p as [|a [|b [|c [|d p]]]]; cbn in E; inversion E; subst; split;
      try lia; vm_compute; reflexivity.
Qed.
Print Assumptions C38_order_refuted.

(** C38 is false: with nothing compatible no hypothesis is returned, a null pointer is read. *)
Theorem C38_null_refuted : exists nZ nL jd thr pick fuel,
  jcbb nZ nL false jd thr pick fuel = UB NullDeref.
Proof.
  exists 2, 2, (fun _ _ => 1%Qc), (fun _ => 0%Qc), newest, 30. vm_compute. reflexivity.
Qed.
Print Assumptions C38_null_refuted.

(** C38 is false: with an uncertain robot pose and three measurements the matrices do not fit
    together, since the first association is in the innovation but not in the count. *)
Theorem C38_shape_refuted : exists nZ nL jd thr pick fuel,
  jcbb nZ nL true jd thr pick fuel = UB Aborted.
Proof.
  exists 3, 3, (fun _ _ => 0%Qc), (fun _ => 1%Qc), newest, 100. vm_compute. reflexivity.
Qed.
Print Assumptions C38_shape_refuted.
