(** Model of JCBB (include/JCBB.hpp), joint compatibility branch and bound.

    Simplifications.  A node of the interpretation tree is its hypothesis: the associations on
    the path from the root, newest first (None is -1).  The joint squared Mahalanobis distance
    of a hypothesis extended by a landmark (include/JCBB.hpp:381-461) is a function [jd] of
    hypothesis and landmark, the quantile of the chi-square distribution (464-466) a function
    [thr] of the number of measurements in the test.  Of the matrices only the numbers of
    blocks are kept: products of matrices of unequal sizes abort (Eigen assertion).
    The priority queue holds shared pointers without comparison function, so the order of its
    elements is that of their addresses: the element taken next is chosen by [pick]. *)
From Coq Require Import List Bool Arith QArith Qcanon.
From Verif Require Import Base ListUtil QcLra.
Import ListNotations.
Local Open Scope nat_scope.

(** Path to the root, include/JCBB.hpp:108-109 and include/Tree.hpp:116. *)
Definition hyp := list (option nat).

(** JCBB_TreeNode, include/JCBB.hpp:106-114: hypothesis, dist_mahalanobis2_, number of blocks
    of innov_ and of C_inverse_. *)
Record node := Node { nh : hyp; nd : Qc; ni : nat; nc : nat }.

(** Associations among the entries, include/JCBB.hpp:361-365. *)
Fixpoint somes (h : hyp) : list nat :=
  match h with [] => [] | Some m :: r => m :: somes r | None :: r => somes r end.

(** used_lmk_indices, include/JCBB.hpp:356-367: the loop stops before a node whose parent is
    the root, so the oldest entry is left out. *)
Definition used (h : hyp) : list nat := somes (removelast h).

(** branchList_, nAssociations_best_, dist_mahalanobis2_best_ (None is DBL_MAX), node_best_,
    include/JCBB.hpp:190-194. *)
Record st := ST { queue : list node; nbest : nat; dbest : option Qc; best : option node }.

Section JCBB.
Variable nZ : nat.                     (* Z_actual_ptr_->size() *)
Variable nL : nat.                     (* landmarks_->size() *)
Variable uncertain : bool.             (* isRobotPoseHasUncertainty || !isEstCovBlockDiag_ *)
Variable jd : hyp -> nat -> Qc.
Variable thr : nat -> Qc.

(** dist_mahalanobis2_best_ <= d, include/JCBB.hpp:492,515. *)
Definition best_le (b : option Qc) (d : Qc) : bool :=
  match b with None => false | Some x => Qcleb x d end.

(** branchList_.push if measurements remain, include/JCBB.hpp:487-488,511-513. *)
Definition push (x : node) (s : st) : st :=
  if length (nh x) <? nZ then ST (queue s ++ [x]) (nbest s) (dbest s) (best s) else s.

(** Body of the loop over the landmarks, include/JCBB.hpp:378-501. *)
Definition try_lmk (n : node) (s : st) (m : nat) : outcome st :=
  let u := used (nh n) in
  let k := length u in
  if existsb (Nat.eqb m) u then Val s
  else if nZ <=? length (nh n) then UB Aborted    (* at( z_idx ) throws *)
  else if uncertain && negb (k =? 0) && negb ((k =? nc n) && (nc n =? ni n)) then UB Aborted
  else
    let d := jd (nh n) m in
    if Qcltb d (thr (1 + k)) then
      let c := if k =? 0 then 1 else if uncertain then ni n + 1 else 0 in
      let x := Node (Some m :: nh n) d (ni n + 1) c in
      let s1 := push x s in
      if (nbest s1 <? k + 1) || ((nbest s1 =? k + 1) && best_le (dbest s1) d)
      then Val (ST (queue s1) (k + 1) (Some d) (Some x))
      else Val s1
    else Val s.

(** branch, include/JCBB.hpp:344-520. *)
Definition branch (n : node) (s : st) : outcome st :=
  if negb (length (nh n) =? 0) && (nZ <=? length (nh n)) then Val s
  else
    let k := length (used (nh n)) in
    let* s1 := fold_left (fun r m => let* x := r in try_lmk n x m) (seq 0 nL) (Val s) in
    let x := Node (None :: nh n) (nd n) (ni n) (nc n) in
    let s2 := push x s1 in
    if (nbest s2 =? k + 1) && best_le (dbest s2) (nd n)
    then Val (ST (queue s2) (nbest s2) (Some (nd n)) (Some x))
    else Val s2.

(** The loop of the constructor, include/JCBB.hpp:293-297. *)
Fixpoint run (pick : list node -> nat) (fuel : nat) (s : st) : outcome st :=
  match queue s with
  | [] => Val s
  | _ =>
    match fuel with
    | O => OutOfFuel
    | S f =>
      match nth_error (queue s) (pick (queue s)) with
      | None => UB OutOfBounds
      | Some n =>
        let q := firstn (pick (queue s)) (queue s) ++ skipn (S (pick (queue s))) (queue s) in
        let* s' := branch n (ST q (nbest s) (dbest s) (best s)) in
        run pick f s'
      end
    end
  end.

(** Constructor, include/JCBB.hpp:262-309, for a confidence level of at most one: the
    hypothesis read through getAssociation (include/JCBB.hpp:317-319), measurement 0 first;
    without a best node the walk to the root dereferences a null pointer. *)
Definition jcbb (pick : list node -> nat) (fuel : nat) : outcome hyp :=
  let* s := run pick fuel (ST [Node [] 0%Qc 0 0] 0 None None) in
  match best s with
  | None => UB NullDeref
  | Some b => Val (rev (nh b) ++ repeat None (nZ - length (nh b)))
  end.
End JCBB.
