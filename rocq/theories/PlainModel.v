(** Model of RFSCeresSLAM (include/RFSCeresSLAM.hpp), third part: rfsMeasurementLikelihood
    (lines 559-866), the measurement likelihood of one scan with its gradients.

    Simplifications.  Doubles are rationals and products are formed directly: the code adds logarithms
    and takes exp, with -1000 for log 0 (its exp is 0 in double precision), as in RfsModel.  All
    components of an Eigen vector are treated alike: the model carries one component of the gradients.
    The unordered maps with key m*nZ+n are functions of m and n; at() on a missing key throws, and
    nothing catches it.  The successive results of Murty's algorithm are a function [kbest] of the
    extended matrix. *)
From Coq Require Import ZArith List Bool Arith QArith Qcanon.
From Verif Require Import Base ListUtil QcLra PermanentSpec PartitionModel LexModel RfsModel.
Import ListNotations.
Local Open Scope nat_scope.

(** ** The table of a scan *)
Section Table.
Variable gauss : nat -> nat -> Qc.  (* evalGaussianLikelihood of landmark m and measurement n, line 655 *)
Variable jac : nat -> nat -> Qc.    (* a component of Jacobian^T * n_error for m and n, lines 664-665 *)
Variable clu : nat -> Qc.           (* clutterIntensity of measurement n *)
Variable da : nat -> Z.             (* DA_[k][n] *)
Variable thr : Qc.                  (* config.MeasurementLikelihoodThreshold_ *)

(** lmInFovIdx and lmInFovPd, include/RFSCeresSLAM.hpp:585-602: what probabilityOfDetection returned,
    [pdm], is overwritten in line 593. *)
Definition p_pd (pdm : nat -> Qc) (m : nat) : Qc := let _ := pdm m in Q2Qc (9 # 10).
(** Part of the above, include/RFSCeresSLAM.hpp:594-600. *)
Definition p_fov (pdm : nat -> Qc) (M : nat) : list nat := filter (fun m => Qcltb 0 (p_pd pdm m)) (seq 0 M).

(** clutter[n], include/RFSCeresSLAM.hpp:606-614. *)
Definition p_clutter (n : nat) : Qc :=
  if (da n =? -1)%Z then clu n else if (da n =? -2)%Z then 1%Qc else 0%Qc.

(** L[m][n] if it is not gated, include/RFSCeresSLAM.hpp:647-668; j is lmInFovIdx[m], Pd lmInFovPd[m]. *)
Definition p_open (pd : Qc) (m j n : nat) : option Qc :=
  if (negb (da n =? Z.of_nat m) && negb (da n =? -1))%Z then None
  else
    let x := if (0 <=? da n)%Z then gauss j n else (gauss j n * pd)%Qc in
    if Qcltb x thr then None else Some x.
(** L[m][n], include/RFSCeresSLAM.hpp:647-660. *)
Definition p_entry (pd : Qc) (m j n : nat) : Qc :=
  match p_open pd m j n with Some x => x | None => 0%Qc end.
(** landmark_gradients and pose_gradients at m*nZ+n, include/RFSCeresSLAM.hpp:662-668. *)
Definition p_stored (pd : Qc) (m j n : nat) : option Qc :=
  match p_open pd m j n with Some x => Some (x * jac j n)%Qc | None => None end.
End Table.

(** ** The partitions *)
Section Partitions.
Variable L : nat -> nat -> Qc.
Variables pd cl : nat -> Qc.
Variables lmg psg : nat -> nat -> option Qc.
Variable kbest : nat -> nat -> (nat -> nat -> Qc) -> list (list nat).

(** landmark_gradient by segment and partition_pose_gradient, include/RFSCeresSLAM.hpp:573-575 and
    695-696. *)
Definition p_state := ((nat -> Qc) * Qc)%type.
(** landmark_gradient.segment( m * dim ) += v, include/RFSCeresSLAM.hpp:785 and 832. *)
Definition p_add (g : nat -> Qc) (m : nat) (v : Qc) : nat -> Qc :=
  fun m' => if m' =? m then (g m' + v)%Qc else g m'.

(** One row of an assignment o with likelihood w, include/RFSCeresSLAM.hpp:779-789 and 826-836. *)
Definition p_row (il jl o : list nat) (w : Qc) (s : p_state) (a : nat) : outcome p_state :=
  let c := nth a o 0 in
  if c <? length jl then
    let m := nth a il 0 in
    let n := nth c jl 0 in
    let* l := of_option Aborted (lmg m n) in
    let* p := of_option Aborted (psg m n) in
    Val (p_add (fst s) m (l * w)%Qc, (snd s + p * w)%Qc)
  else Val s.
(** "find the gradients", include/RFSCeresSLAM.hpp:777-790 and 824-839. *)
Definition p_rows (il jl o : list nat) (w : Qc) (s : p_state) : outcome p_state :=
  if Qcltb 0 w then
    fold_left (fun r a => let* s := r in p_row il jl o w s a) (seq 0 (length il)) (Val s)
  else Val s.

(** The loop over the permutations, include/RFSCeresSLAM.hpp:803-845. *)
Fixpoint p_lex (fuel : nat) (il jl : list nat) (x : lex) (v : Qc) (s : p_state) : outcome (Qc * p_state) :=
  match fuel with
  | 0 => OutOfFuel
  | S f =>
    let* r := next x in
    let '(x', n, o) := r in
    if n =? 0 then Val (v, s)
    else
      let* w := perm_weight L pd cl il jl o in
      let* s := p_rows il jl o w s in
      p_lex f il jl x' (v + w)%Qc s
  end.

(** The loop over the results of Murty's algorithm, include/RFSCeresSLAM.hpp:768-791. *)
Fixpoint p_murty (k : nat) (il jl : list nat) (E : nat -> nat -> Qc) (outs : list (list nat)) (v : Qc) (s : p_state)
    : outcome (Qc * p_state) :=
  match k, outs with
  | S k', o :: r =>
    let w := product_along E 0 o in
    if Qc_eq_dec w 0%Qc then Val (v, s)
    else
      let* s := p_rows il jl o w s in
      p_murty k' il jl E r (v + w)%Qc s
  | _, _ => Val (v, s)
  end.

(** partition_likelihood and the gradients before their normalisation, include/RFSCeresSLAM.hpp:704-850. *)
Definition p_block (murty flag : bool) (il jl : list nat) (s : p_state) : outcome (Qc * p_state) :=
  if negb flag then Val (zero_likelihood pd cl il jl, s)
  else if murty then
    p_murty 200 il jl (extended L pd cl il jl) (kbest (length il) (length jl) (extended L pd cl il jl)) 0%Qc s
  else p_lex (S (S (length jl) ^ length il)) il jl (lex_new (length il) (length jl) true) 0%Qc s.

(** Division of the segments of the partition, include/RFSCeresSLAM.hpp:856-858. *)
Definition p_norm (il : list nat) (v : Qc) (g : nat -> Qc) : nat -> Qc :=
  fold_left (fun g m => fun m' => if m' =? m then (g m' / v)%Qc else g m') il g.

(** The loop over the partitions, include/RFSCeresSLAM.hpp:684-866. *)
Fixpoint p_blocks (g : cgen) (ps : list nat) (l : Qc) (lg : nat -> Qc) (pg : Qc) : outcome (Qc * (nat -> Qc) * Qc) :=
  match ps with
  | [] => Val (l, lg, pg)
  | p :: r =>
    let* sz := getPartitionSize g p in
    let '(nR, nC, flag) := sz in
    let useMurty := negb ((nR + nC <=? 8) || negb flag) in
    let* got := getPartition g p useMurty in
    let* b := p_block useMurty (gflag (snd got)) (grows (snd got)) (gcols (snd got)) (lg, 0%Qc) in
    let '(v, (lg', pp)) := b in
    if Qcltb 0 v then p_blocks (fst got) r (l * v)%Qc (p_norm (grows (snd got)) v lg') (pg + pp / v)%Qc
    else p_blocks (fst got) r (l * v)%Qc lg' pg
  end.
End Partitions.

(** rfsMeasurementLikelihood, include/RFSCeresSLAM.hpp:559-866: what it returns, landmark_gradient by
    segment, pose_gradient.  [M] is the number of landmarks, [jl] and [jp] the components of the two
    Jacobians transposed times n_error. *)
Definition plain_scan (gauss jl jp : nat -> nat -> Qc) (pdm clu : nat -> Qc) (da : nat -> Z) (thr : Qc)
    (kbest : nat -> nat -> (nat -> nat -> Qc) -> list (list nat)) (cc : nat -> nat) (ncc : nat)
    (integral : Qc) (M nZ : nat) : outcome (Qc * (nat -> Qc) * Qc) :=
  let fv := p_fov pdm M in
  let cl := p_clutter clu da in
  if length fv =? 0 then Val (fold_left Qcmult (map cl (seq 0 nZ)) 1%Qc, fun _ => 0%Qc, 0%Qc)
  else
    let idx m := nth m fv m in          (* m is less than the length of fv wherever this is used *)
    let pd m := p_pd pdm (idx m) in
    let L m n := p_entry gauss da thr (pd m) m (idx m) n in
    let* r := partition cc ncc (cg_new (sig L) (length fv) nZ 0%Z) in
    let* b := p_blocks L pd cl (fun m n => p_stored gauss jl da thr (pd m) m (idx m) n)
                (fun m n => p_stored gauss jp da thr (pd m) m (idx m) n) kbest (fst r) (seq 0 (snd r)) 1%Qc (fun _ => 0%Qc) 0%Qc in
    let '(l, lg, pg) := b in
    if Qc_eq_dec integral 0%Qc then UB DivByZero else Val ((l / integral)%Qc, lg, pg).
