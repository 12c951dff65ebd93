(** C31-C34: the spatial index. *)
From Coq Require Import List Bool Arith ZArith QArith Qcanon Lia Permutation.
From Verif Require Import Base ListUtil QcLra SpatialModel SpatialSpec SpatialClosest SpatialReach.
Import ListNotations.
Local Open Scope Qc_scope.

(** Six points in the plane: three in one quarter, two of them in one smallest box, one far
    away. *)
Definition ex_pos (d : nat) : pos :=
  match d with
  | 0%nat => [Q2Qc (1#3); Q2Qc (2#3)]
  | 1%nat => [Q2Qc (1#2); Q2Qc (1#4)]
  | 2%nat => [Q2Qc (16#3); Q2Qc (-7#2)]
  | 3%nat => [Q2Qc (-1#2); Q2Qc (1#5)]
  | 4%nat => [Q2Qc (9#2); Q2Qc (-7#3)]
  | _ => [Q2Qc (13#5); Q2Qc (-1#7)]
  end.

Lemma ex_pos_dim : forall d, length (ex_pos d) = 2%nat.
Proof. intros [|[|[|[|[|d]]]]]; reflexivity. Qed.

Definition ex_ops : list op :=
  [Add 0; Add 1; Add 2; Add 3; Add 4; Add 5; Size;
   InBox [Q2Qc (1#4); Q2Qc (-3)] [Q2Qc 5; Q2Qc (3#5)]; Closest [Q2Qc 3; Q2Qc (-3)];
   Remove 2; Remove 0; Remove 4; Closest [Q2Qc 3; Q2Qc (-3)]; Size].

(** C31 (all but points on cell faces, and removal of points that are not stored and lie
    outside the root): every history either answers as a multiset of points does, with exact
    counts in every box, or stops at a call that is not allowed. *)
Theorem C31_history_partial : forall n m P, 0 < m -> (forall d, length (P d) = n) ->
  forall l, (forall o, In o l -> dims n o) ->
  exists N,
    (exists root answers S, (forall fuel, (N <= fuel)%nat -> calls n m P fuel l (init n m) = Val (root, answers)) /\
       history m P [] l answers S /\ Permutation (points root) S /\ exact_counts root) \/
    ((forall fuel, (N <= fuel)%nat -> calls n m P fuel l (init n m) = UB NullDeref) /\
       exists pre o post answers S, l = pre ++ o :: post /\ history m P [] pre answers S /\ misuse S o).
Proof. exact spatial_history. Qed.
Print Assumptions C31_history_partial.

Example C31_history_example :
  (forall o, In o ex_ops -> dims 2 o) /\
  omap (fun r => (snd r, points (fst r))) (calls 2 1 ex_pos 40 ex_ops (init 2 1)) =
  Val ([ANone; ANone; ANone; ANone; ANone; ANone; ANum 6; AList [5; 4; 1]%nat; APoint 4;
        ABool true; ABool true; ABool true; APoint 5; ANum 3], [5; 3; 1]%nat).
Proof.
  split; [|vm_compute; reflexivity].
  intros o H. repeat (destruct H as [<-|H]; [simpl; auto|]). destruct H.
Qed.

(** C31, one call: a stored point none of whose coordinates is a multiple of the smallest box
    size is removed, once. *)
Theorem C31_remove_partial : forall n m P, 0 < m -> (forall d, length (P d) = n) ->
  forall fuel l root answers, (forall o, In o l -> dims n o) -> calls n m P fuel l (init n m) = Val (root, answers) ->
  forall d, In d (points root) -> ~ touches_grid m (P d) ->
  exists root', removeData P d root = Val (root', true) /\ Permutation (points root) (d :: points root').
Proof. exact remove_stored. Qed.
Print Assumptions C31_remove_partial.

Example C31_remove_example :
  omap (fun r => omap (fun x => (points (fst x), snd x)) (removeData ex_pos 4 (fst r)))
       (calls 2 1 ex_pos 40 (firstn 6 ex_ops) (init 2 1)) = Val (Val ([5; 2; 3; 0; 1]%nat, true)).
Proof. vm_compute. reflexivity. Qed.

(** C31 as stated fails: after the root has doubled, a stored point that lies on a face of the
    first root is looked for in the neighbouring box; removeData reports false and keeps it. *)
Theorem C31_refuted : exists n m P l d, 0 < m /\ (forall e, length (P e) = n) /\
  match calls n m P 20 l (init n m) with
  | Val (root, _) => In d (points root) /\ omap snd (removeData P d root) = Val false
  | _ => False
  end.
Proof.
  exists 1%nat, 1, (fun e => [match e with O => Q2Qc (-1) | _ => Q2Qc (3#2) end]), [Add 0; Add 1], 0%nat.
  split; [reflexivity|]. split; [reflexivity|]. vm_compute. auto.
Qed.
Print Assumptions C31_refuted.

(** Removing a point outside the root box dereferences a null pointer instead of reporting
    that nothing was removed. *)
Theorem C31_remove_outside_refuted : exists n m P d, 0 < m /\ (forall e, length (P e) = n) /\
  removeData P d (init n m) = UB NullDeref.
Proof.
  exists 1%nat, 1, (fun _ => [Q2Qc 7]), 0%nat. split; [reflexivity|]. split; [reflexivity|]. vm_compute. reflexivity.
Qed.
Print Assumptions C31_remove_outside_refuted.

(** C32: a box query returns a sub-multiset of the stored points, all in the closed box. *)
Theorem C32_box_sound : forall n m P, 0 < m -> (forall d, length (P d) = n) ->
  forall fuel l root answers, (forall o, In o l -> dims n o) -> calls n m P fuel l (init n m) = Val (root, answers) ->
  forall qmin qmax, length qmin = n -> length qmax = n ->
  exists N r rest, (forall fuel, (N <= fuel)%nat -> queryDataInBox P fuel qmin qmax root = Val r) /\
    Permutation (points root) (r ++ rest) /\ (forall d, In d r -> in_closed qmin qmax (P d)).
Proof. exact box_sound. Qed.
Print Assumptions C32_box_sound.

Example C32_box_example :
  omap (fun r => (points (fst r), queryDataInBox ex_pos 40 [Q2Qc (1#4); Q2Qc (-3)] [Q2Qc 5; Q2Qc (3#5)] (fst r)))
       (calls 2 1 ex_pos 40 (firstn 6 ex_ops) (init 2 1)) = Val ([5; 2; 4; 3; 0; 1]%nat, Val [5; 4; 1]%nat).
Proof. vm_compute. reflexivity. Qed.

(** C33 (all points but those on a face of the query box which is on the grid of smallest
    boxes): nothing in the closed box is missing. *)
Theorem C33_box_complete_partial : forall n m P, 0 < m -> (forall d, length (P d) = n) ->
  forall fuel l root answers, (forall o, In o l -> dims n o) -> calls n m P fuel l (init n m) = Val (root, answers) ->
  forall qmin qmax, length qmin = n -> length qmax = n ->
  exists N r rest, (forall fuel, (N <= fuel)%nat -> queryDataInBox P fuel qmin qmax root = Val r) /\
    Permutation (points root) (r ++ rest) /\
    (forall d, In d r -> in_closed qmin qmax (P d)) /\
    (forall d, In d rest -> in_closed qmin qmax (P d) -> touches m qmin qmax (P d)).
Proof. exact box_query. Qed.
Print Assumptions C33_box_complete_partial.

Example C33_box_example :
  omap (fun r => queryDataInBox ex_pos 40 [Q2Qc (-1#2); Q2Qc (1#5)] [Q2Qc (1#2); Q2Qc (2#3)] (fst r))
       (calls 2 1 ex_pos 40 (firstn 6 ex_ops) (init 2 1)) = Val (Val [3; 0; 1]%nat).
Proof. vm_compute. reflexivity. Qed.

(** C33 as stated fails: a stored point on the common face of two boxes is not returned for a
    query box in the other one. *)
Theorem C33_refuted : exists n m P l d qmin qmax, 0 < m /\ (forall e, length (P e) = n) /\
  in_closed qmin qmax (P d) /\
  match calls n m P 20 l (init n m) with
  | Val (root, _) => In d (points root) /\ queryDataInBox P 20 qmin qmax root = Val []
  | _ => False
  end.
Proof.
  exists 1%nat, 1, (fun e => [Q2Qc 0]), [Add 0], 0%nat, [Q2Qc 0], [Q2Qc (1#2)].
  split; [reflexivity|]. split; [reflexivity|]. split.
  - split; repeat constructor; discriminate.
  - vm_compute. auto.
Qed.
Print Assumptions C33_refuted.

(** C34: the nearest-point query returns a nearest stored point. *)
Theorem C34_closest : forall n m P, 0 < m -> (forall d, length (P d) = n) ->
  forall fuel l root answers, (forall o, In o l -> dims n o) -> calls n m P fuel l (init n m) = Val (root, answers) ->
  forall q, length q = n ->
  (points root <> [] -> exists N d, (forall fuel, (N <= fuel)%nat -> queryClosestPt P fuel q root = Val d) /\
     In d (points root) /\ forall e, In e (points root) -> sqdist (P d) q <= sqdist (P e) q) /\
  (points root = [] -> exists N, forall fuel, (N <= fuel)%nat -> queryClosestPt P fuel q root = UB NullDeref).
Proof. exact closest_query. Qed.
Print Assumptions C34_closest.

Example C34_closest_example :
  omap (fun r => (queryClosestPt ex_pos 40 [Q2Qc 3; Q2Qc (-3)] (fst r), queryClosestPt ex_pos 40 [Q2Qc (-70); Q2Qc 11] (fst r)))
       (calls 2 1 ex_pos 40 (firstn 6 ex_ops) (init 2 1)) = Val (Val 4%nat, Val 3%nat).
Proof. vm_compute. reflexivity. Qed.
