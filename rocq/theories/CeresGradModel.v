(** Model of RFSCeresSLAM (include/RFSCeresSLAM.hpp), second part: the measurement log-likelihood
    of one scan with its gradients (lines 868-1184), and the motion terms (518-558).

    Simplifications.  Doubles are real numbers.  BIG_NEG_NUM in the table is None; it counts as
    -1000 in the score of an assignment, but the exponential of the score of an assignment with such
    an entry, less that of the best one, is zero, as it is in double precision.  Eigen vectors are
    functions from the index of the component.  The unordered maps with key m*nZ+n are functions of
    m and n; at() on a missing key throws, and nothing catches it.  The partitions are the list
    [bl] of what getPartition returns (rows, columns, not the zero partition; C15 and C16), the
    successive results of Murty's algorithm are [kb], one list for each partition.  The detection
    probability of a landmark in view is less than one and its logarithm is above -1000, as are
    those of the clutter intensities. *)
From Coq Require Import Reals ZArith List Bool Arith.
From Verif Require Import Base ListUtil SensorModel OdometryModel.
Import ListNotations.
Local Open Scope R_scope.

(** BIG_NEG_NUM, include/RFSCeresSLAM.hpp:232. *)
Definition BIG_NEG : R := -1000.
(** Part of the above, include/RFSCeresSLAM.hpp:232. *)
Definition entry (e : option R) : R := match e with Some x => x | None => BIG_NEG end.

(** ** One landmark and one measurement *)

(** evalGaussianLogLikelihood with n_error, include/RandomVec.hpp:530-549: expected measurement h, its
    inverse covariance and determinant (which are given), measurement z. *)
Definition eval_log (n : nat) (Sinv : mx) (det : R) (h z : vec) : R * vec :=
  let e := fun i => z i - h i in
  let n_error := mapp n Sinv e in
  (log_gauss n det (dot n e n_error), n_error).
(** lm_grad and pose_grad, include/RFSCeresSLAM.hpp:981-984, for the Jacobian J of the measurement. *)
Definition pair_grad (n : nat) (J : mx) (n_error : vec) : vec := mapp n (tr J) n_error.

(** ** The table of a scan *)
Section Table.
Variable lik : nat -> nat -> R.     (* evalGaussianLogLikelihood of landmark j and measurement n *)
Variable lmg psg : nat -> nat -> vec. (* jacobian_wrt_lmk^T * n_error and jacobian_wrt_pose^T * n_error *)
Variable pd : nat -> R.             (* probabilityOfDetection of landmark j *)
Variable clu : nat -> R.            (* log( clutterIntensity ) of measurement n *)
Variable da : nat -> Z.             (* DA_[k][n] *)
Variable thr : R.                   (* config.MeasurementLikelihoodThreshold_ *)

(** lmInFovIdx, include/RFSCeresSLAM.hpp:895-911. *)
Definition g_fov (M : nat) : list nat := filter (fun m => if Rlt_dec 0 (pd m) then true else false) (seq 0 M).

(** clutter[n], include/RFSCeresSLAM.hpp:915-926. *)
Definition g_clutter (n : nat) : R :=
  if (da n =? -1)%Z then clu n else if (da n =? -2)%Z then 0 else BIG_NEG.

(** "data association exists and this is not it", include/RFSCeresSLAM.hpp:967. *)
Definition barred (m n : nat) : bool := (negb (da n =? Z.of_nat m) && negb (da n =? -1))%Z.

(** L[m][n], include/RFSCeresSLAM.hpp:957-979; m counts the landmarks in view. *)
Definition g_entry (fv : list nat) (m n : nat) : option R :=
  if barred m n then None
  else
    let j := nth m fv 0%nat in
    let x := lik j n + ln (pd j) - ln (1 - pd j) - g_clutter n in
    if Rlt_dec x thr then None else Some x.

(** landmark_gradients and pose_gradients, include/RFSCeresSLAM.hpp:981-988. *)
Definition g_lm (fv : list nat) (m n : nat) : option vec :=
  if barred m n then None else Some (lmg (nth m fv 0%nat) n).
(** Part of the above, include/RFSCeresSLAM.hpp:981-988. *)
Definition g_ps (fv : list nat) (m n : nat) : option vec :=
  if barred m n then None else Some (psg (nth m fv 0%nat) n).

(** What the loop adds up for the rows and columns of a partition before the assignments,
    include/RFSCeresSLAM.hpp:1024-1030. *)
Definition g_base (fv il jl : list nat) : R :=
  fold_left Rplus (map g_clutter jl) (fold_left Rplus (map (fun r => ln (pd (nth r fv 0%nat))) il) 0).
End Table.

(** ** One partition *)
Section Partition.
Variable ent : nat -> nat -> option R.
Variable lm ps : nat -> nat -> option vec.
Variables il jl : list nat.
Notation nR := (length il).
Notation nC := (length jl).

(** Cp with the extension, include/RFSCeresSLAM.hpp:1041-1079. *)
Definition g_ext (r c : nat) : option R :=
  if (r <? nR)%nat then
    if (c <? nC)%nat then ent (nth r il 0%nat) (nth c jl 0%nat)
    else if (r =? c - nC)%nat then Some 0 else None
  else
    if (c <? nC)%nat then (if (r - nR =? c)%nat then Some 0 else None) else Some 0.

(** Score of an assignment from row i on; what findNextBest reports, include/RFSCeresSLAM.hpp:1089 and 1101. *)
Fixpoint g_score (i : nat) (a : list nat) : R :=
  match a with [] => 0 | c :: r => entry (g_ext i c) + g_score (S i) r end.
(** No entry is BIG_NEG_NUM; include/RFSCeresSLAM.hpp:1041-1079. *)
Fixpoint g_live (i : nat) (a : list nat) : bool :=
  match a with [] => true | c :: r => match g_ext i c with Some _ => g_live (S i) r | None => false end end.
(** exp( permutation_log_likelihood - first_permutation_log_likelihood ), line 1106. *)
Definition g_weight (a first : list nat) : R :=
  if g_live 0 a then exp (g_score 0 a - g_score 0 first) else 0.

(** The vector of row r if assigned to column c, zero if c is not a measurement; lines 1118-1126. *)
Definition g_at (tab : nat -> nat -> option vec) (r c : nat) : outcome vec :=
  if (c <? nC)%nat then of_option Aborted (tab (nth r il 0%nat) (nth c jl 0%nat)) else Val (fun _ => 0).

(** landmark_gradient by the segment that is written, partition_pose_gradient;
    include/RFSCeresSLAM.hpp:880-882 and 1012-1013. *)
Definition g_state := ((nat -> vec) * vec)%type.
(** Part of the above, include/RFSCeresSLAM.hpp:880-882 and 1012-1013. *)
Definition add_at (g : nat -> vec) (m : nat) (v : vec) (w : R) : nat -> vec :=
  fun m' => if (m' =? m)%nat then fun d => g m' d + v d * w else g m'.

(** The loop over the rows for a further assignment, include/RFSCeresSLAM.hpp:1111-1130. *)
Definition row_diff (a first : list nat) (w : R) (s : g_state) (r : nat) : outcome g_state :=
  let c := nth r a 0%nat in
  let c0 := nth r first 0%nat in
  if (c =? c0)%nat then Val s
  else
    let* l1 := g_at lm r c in
    let* p1 := g_at ps r c in
    let* p0 := g_at ps r c0 in
    let* l0 := g_at lm r c0 in
    Val (add_at (fst s) (nth r il 0%nat) (fun d => l1 d - l0 d) w, fun d => snd s d + (p1 d - p0 d) * w).
(** Part of the above, include/RFSCeresSLAM.hpp:1111-1130. *)
Definition rows (f : g_state -> nat -> outcome g_state) (s : g_state) (n : nat) : outcome g_state :=
  fold_left (fun o r => let* s := o in f s r) (seq 0 n) (Val s).

(** The loop over the further assignments, include/RFSCeresSLAM.hpp:1099-1132. *)
Fixpoint others (k : nat) (first : list nat) (outs : list (list nat)) (corr : R) (s : g_state)
    : outcome (R * g_state) :=
  match k, outs with
  | S k', a :: r =>
    if Rlt_dec (g_score 0 a) BIG_NEG then Val (corr, s)
    else
      let w := g_weight a first in
      let* s' := rows (row_diff a first w) s nR in
      others k' first r (corr + w) s'
  | _, _ => Val (corr, s)
  end.

(** Division of the landmark gradients of the partition, include/RFSCeresSLAM.hpp:1134-1136. *)
Definition norm_rows (corr : R) (g : nat -> vec) : nat -> vec :=
  fold_left (fun g r => fun m' => if (m' =? nth r il 0%nat)%nat then fun d => g m' d / corr else g m') (seq 0 nR) g.

(** The gradients of the best assignment, include/RFSCeresSLAM.hpp:1140-1148. *)
Definition row_first (first : list nat) (s : g_state) (r : nat) : outcome g_state :=
  let c := nth r first 0%nat in
  if (c <? nC)%nat then
    let* l := g_at lm r c in
    let* p := g_at ps r c in
    Val (add_at (fst s) (nth r il 0%nat) l 1, fun d => snd s d + p d)
  else Val s.

(** A partition that is not the zero partition, include/RFSCeresSLAM.hpp:1037-1157: what is added
    to the logarithm, and the gradients.  The gradient of the pose starts from zero in every
    partition (line 1013) and is added without division (line 1153). *)
Definition g_block (outs : list (list nat)) (lg : nat -> vec) (pg : vec) : outcome (R * (nat -> vec) * vec) :=
  match outs with
  | [] => UB Uninit                 (* findNextBest returned -1, a is left as it was *)
  | first :: r =>
    let* o := others 200 first r 1 (lg, fun _ => 0) in
    let '(corr, s) := o in
    let s := (norm_rows corr (fst s), snd s) in
    let* s := if Rlt_dec BIG_NEG (g_score 0 first) then rows (row_first first) s nR else Val s in
    Val (g_score 0 first + ln corr, fst s, fun d => pg d + snd s d)
  end.
End Partition.

(** ** The scan *)
Section Scan.
Variable lik : nat -> nat -> R.
Variable lmg psg : nat -> nat -> vec.
Variable pd : nat -> R.
Variable clu : nat -> R.
Variable da : nat -> Z.
Variable thr : R.

(** The loop over the partitions, include/RFSCeresSLAM.hpp:1004-1179. *)
Fixpoint g_blocks (fv : list nat) (bl : list (list nat * list nat * bool)) (kb : list (list (list nat)))
    (l : R) (lg : nat -> vec) (pg : vec) : outcome (R * (nat -> vec) * vec) :=
  match bl, kb with
  | [], _ => Val (l, lg, pg)
  | (il, jl, flag) :: bl', k :: kb' =>
    let base := g_base pd clu da fv il jl in
    if flag then
      let* r := g_block (g_entry lik pd clu da thr fv) (g_lm lmg da fv) (g_ps psg da fv) il jl k lg pg in
      let '(v, lg', pg') := r in
      g_blocks fv bl' kb' (l + (base + v)) lg' pg'
    else g_blocks fv bl' kb' (l + base) lg pg
  | _ :: _, [] => UB Uninit
  end.

(** rfsMeasurementLogLikelihood, include/RFSCeresSLAM.hpp:868-1184: value, landmark_gradient by
    segment, pose_gradient. *)
Definition g_scan (M nZ : nat) (integral : R) (bl : list (list nat * list nat * bool)) (kb : list (list (list nat)))
    : outcome (R * (nat -> vec) * vec) :=
  let fv := g_fov pd M in
  if (length fv =? 0)%nat then
    Val (fold_left Rplus (map (g_clutter clu da) (seq 0 nZ)) 0 - integral, fun _ _ => 0, fun _ => 0)
  else
    let* r := g_blocks fv bl kb 0 (fun _ _ => 0) (fun _ => 0) in
    let '(l, lg, pg) := r in Val (l - integral, lg, pg).
End Scan.

(** ** The motion terms *)

(** include/RFSCeresSLAM.hpp:531-545: [f k] is logLikelihood( trajectory_[k], trajectory_[k-1], .. )
    with its pose_grad; the sum, and the trajectory gradient by segment (segment k - 1 is pose k). *)
Definition motion_grad (f : nat -> R * vec) (nT : nat) : R * (nat -> vec) :=
  fold_left (fun s k => (fst s + fst (f k),
      fun j => if (j =? k - 1)%nat then fun d => snd s j d + snd (f k) d
               else if (j =? k - 2)%nat then fun d => snd s j d - snd (f k) d else snd s j))
    (seq 2 (nT - 2)) (fst (f 1%nat), fun j => if (j =? 0)%nat then snd (f 1%nat) else fun _ => 0).
