(** The joint distance of a JCBB hypothesis (include/JCBB.hpp:378-484), which JCBBModel.v takes as a
    function, for matrices of any size over any ordered field.

    Simplifications.  Field arithmetic is exact.  A hypothesis is the list of its associations, newest
    first: landmark index and innovation (lines 382-384); measurement 0 is not among them, since the
    search leaves its association out of used_lmk_indices (lines 360-367, C38).  Matrices of size zero
    stand for those Eigen leaves empty. *)
From mathcomp Require Import all_ssreflect all_algebra.
Set Implicit Arguments.
Unset Strict Implicit.
Unset Printing Implicit Defensive.
Import Order.Theory GRing.Theory Num.Theory.
Local Open Scope ring_scope.

Section Joint.
Variable F : realFieldType.
Variables r l m : nat.   (* robotDim, lmkDim, measureDim, lines 388-390 *)

(** What the distance is computed from: jacobians_wrt_pose_ and jacobians_wrt_lmk_ per landmark
    (lines 336-339), the blocks of the covariance of the estimate and the noise Q (lines 385-386).
    With estCovDense the blocks are those of lines 403-410, without it e_rr and e_ll i i are the
    covariances of the robot and of the landmarks (lines 421-422) and the others are not used. *)
Record est := Est {
  e_Hr : nat -> 'M[F]_(m, r); e_Hl : nat -> 'M[F]_(m, l);
  e_rr : 'M[F]_r; e_rl : nat -> 'M[F]_(r, l); e_lr : nat -> 'M[F]_(l, r); e_ll : nat -> nat -> 'M[F]_l;
  e_Q : 'M[F]_m }.

(** An association of a hypothesis: m_idx and innov, lines 377-384. *)
Definition assoc := (nat * 'cV[F]_m)%type.

(** Rows of the stacked innovation, line 472. *)
Fixpoint dim (h : seq assoc) : nat := if h is _ :: h' then (dim h' + m)%N else 0%N.

(** A row of blocks, oldest association first (line 409 reverses the list of lines 360-367). *)
Fixpoint blocks (X : nat -> 'M[F]_m) (h : seq assoc) : 'M[F]_(m, dim h) :=
  match h with
  | [::] => 0
  | a :: h' => row_mx (blocks X h') (X a.1)
  end.

Section Code.
Variable e : est.
Variable dense : bool.   (* !isEstCovBlockDiag_, line 401 *)

(** A block of W, lines 405-412 and 425-427. *)
Definition w_block (i j : nat) : 'M[F]_m :=
  if dense then
    let HP_r := e_Hr e i *m e_rr e + e_Hl e i *m e_lr e i in
    let HP_j := e_Hr e i *m e_rl e j + e_Hl e i *m e_ll e i j in
    HP_r *m (e_Hr e j)^T + HP_j *m (e_Hl e j)^T + e_Q e
  else e_Hr e i *m e_rr e *m (e_Hr e i)^T + e_Q e.

(** C_current, lines 416-417 and 429-430; with a zero covariance of the robot (435) the first term is zero. *)
Definition c_current (i : nat) : 'M[F]_m :=
  e_Hr e i *m e_rr e *m (e_Hr e i)^T + e_Hl e i *m e_ll e i i *m (e_Hl e i)^T + e_Q e.

(** isRobotPoseHasUncertainty || !isEstCovBlockDiag_, lines 401, 424, 437 and 446. *)
Definition coupled : bool := dense || (e_rr e != 0).
End Code.

(** One more association, lines 442-484: the inverse covariance, the innovation and the distance of the
    new node from those of the node; [W] and [C] as computed by the code.  In the uncoupled case the
    inverse covariance of a second association is not kept (lines 475-484: it stays empty) and not read; the
    model has a value there. *)
Definition extend (cpl : bool) (first : bool) (p : nat) (Ci : 'M[F]_p) (nu : 'cV[F]_p) (d : F)
    (W : 'M[F]_(m, p)) (C : 'M[F]_m) (v : 'cV[F]_m) : 'M[F]_(p + m) * 'cV[F]_(p + m) * F :=
  if ~~ first && cpl then
    let N := invmx (C - W *m Ci *m W^T) in
    let L := - N *m W *m Ci in
    let K := Ci + L^T *m invmx N *m L in
    let d1 := (nu^T *m L^T *m invmx N *m L *m nu) 0 0 in
    let d2 := 2%:R * (v^T *m L *m nu) 0 0 in
    let d3 := (v^T *m N *m v) 0 0 in
    (block_mx K L^T L N, col_mx nu v, d + d1 + d2 + d3)
  else (block_mx 0 0 0 (invmx C), col_mx nu v, d + (v^T *m invmx C *m v) 0 0).

(** C_inverse_, innov_ and dist_mahalanobis2_ of the node of a hypothesis, for blocks given by X and C:
    lines 369-370 and 446-484 along a path of the tree whose nodes all associate. *)
Fixpoint node_of (cpl : bool) (X : nat -> nat -> 'M[F]_m) (C : nat -> 'M[F]_m) (h : seq assoc) : 'M[F]_(dim h) * 'cV[F]_(dim h) * F :=
  match h with
  | [::] => (0, 0, 0)
  | a :: h' =>
      let n := node_of cpl X C h' in
      extend cpl (size h' == 0%N) n.1.1 n.1.2 n.2 (blocks (X a.1) h') (C a.1) a.2
  end.

(** dist_mahalanobis2 as JCBB computes it, lines 399-461. *)
Definition jcbb_dist (e : est) (dense : bool) (h : seq assoc) : F :=
  (node_of (coupled e dense) (w_block e dense) (c_current e) h).2.
End Joint.
