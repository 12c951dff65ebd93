(** Model of KalmanFilter::correct, both overloads (include/KalmanFilter.hpp:218-351),
    calculateInnovation (353-360) and, for the scalar case,
    MeasurementModel_Rng1D::measure (src/MeasurementModel_Rng1D.cpp:67-101) and
    StaticProcessModel::step (include/ProcessModel.hpp:314-327).

    The control flow is modelled once for all state and measurement types: the linear algebra
    of lines 249-252 is the argument [update], evalGaussianLikelihood the arguments [lik] and
    [maha].  The scalar instance below computes with rationals, which are exact; the matrix
    instance is in KalmanMxModel.v.  A floating point number that may be NaN is an [option]:
    None is NaN. *)
From Coq Require Import List Bool Arith ZArith QArith Qcanon.
From Verif Require Import Base ListUtil QcLra Loop.
Import ListNotations.
Local Open Scope nat_scope.

Section Correct.
Variables Pose Lmk Meas Exp Inn : Type.
(** MeasurementModel::measure: validity flag and expected measurement (mean, covariance,
    Jacobian), include/KalmanFilter.hpp:239 and 294. *)
Variable measure : Pose -> Lmk -> bool * Exp.
(** calculateInnovation: None when it returns false, include/KalmanFilter.hpp:246 and 322. *)
Variable innovation : Exp -> Meas -> option Inn.
(** Gain, covariance and mean, include/KalmanFilter.hpp:249-252 and 309-311, 323. *)
Variable update : Lmk -> Exp -> Inn -> Lmk.
(** m_updated.isZero(), include/KalmanFilter.hpp:253. *)
Variable is_zero : Lmk -> bool.
(** RandomVec::evalGaussianLikelihood (None is NaN) and its mahalanobisDist2 output,
    include/RandomVec.hpp:456-471. *)
Variable lik : Exp -> Meas -> option Qc.
Variable maha : Exp -> Meas -> Qc.
(** True when assert is compiled in (NDEBUG not defined). *)
Variable checked : bool.
(** A default constructed landmark, include/KalmanFilter.hpp:313. *)
Variable lmk_new : Lmk.

(** "if(zl != zl) zl = 0", include/KalmanFilter.hpp:262-263 and 333-334. *)
Definition de_nan (l : option Qc) : Qc := match l with Some v => v | None => 0%Qc end.

(** What a call leaves behind: return value, landmark_updated and the doubles behind the two
    pointers (None is a NULL pointer); include/KalmanFilter.hpp:116-119. *)
Record out1 := Out1 { o_ret : bool; o_lmk : Lmk; o_lik : option Qc; o_md : option Qc }.

(** correct for one measurement, include/KalmanFilter.hpp:218-268.  [zl] and [md] are the
    contents of *zLikelihood and *mahalanobisDist2 before the call, [upd] landmark_updated. *)
Definition correct (pose : Pose) (z : Meas) (cur upd : Lmk) (zl md : option Qc) : outcome out1 :=
  let '(ok, e) := measure pose cur in
  if negb ok then Val (Out1 false upd zl md)
  else
    match innovation e z with
    | None => Val (Out1 false upd zl md)
    | Some i =>
        let l' := update cur e i in
        if checked && is_zero l' then UB Aborted
        else
          match zl with
          | None => Val (Out1 true l' None md)
          | Some _ =>
              Val (Out1 true l' (Some (de_nan (lik e z)))
                        (match md with None => None | Some _ => Some (maha e z) end))
          end
    end.

(** vector::resize: keep the first n entries, fill up with [d]; include/KalmanFilter.hpp:313-317. *)
Definition resize {A : Type} (d : A) (n : nat) (l : list A) : list A :=
  firstn n l ++ repeat d (n - length l).

(** v->at(i) = x: throws std::out_of_range, which nobody catches, when i is no index;
    include/KalmanFilter.hpp:297-342. *)
Definition put_at {A : Type} (l : list A) (i : nat) (x : A) : outcome (list A) :=
  if i <? length l then Val (upd l i x) else UB Aborted.

(** "if(v != NULL) v->at(i) = x"; include/KalmanFilter.hpp:296-342. *)
Definition put_opt (l : option (list Qc)) (i : nat) (x : Qc) : outcome (option (list Qc)) :=
  match l with
  | None => Val None
  | Some v => let* v' := put_at v i x in Val (Some v')
  end.

(** The three output vectors of the second overload; None is a NULL pointer; include/KalmanFilter.hpp:122-137. *)
Record outs := Outs { b_lmk : list Lmk; b_lik : option (list Qc); b_md : option (list Qc) }.

(** Loop when no valid measurement is expected, include/KalmanFilter.hpp:295-302. *)
Definition clear_step (i : nat) (s : outs) : outcome outs :=
  let* l := put_opt (b_lik s) i 0%Qc in
  let* d := put_opt (b_md s) i 0%Qc in
  Val (Outs (b_lmk s) l d).

(** Body of the loop over the measurements, include/KalmanFilter.hpp:320-347. *)
Definition batch_step (cur : Lmk) (e : Exp) (zs : list Meas) (i : nat) (s : outs) : outcome outs :=
  let* z := of_option OutOfBounds (nth_error zs i) in
  match innovation e z with
  | Some inn =>
      let* ls := (if i <? length (b_lmk s) then Val (upd (b_lmk s) i (update cur e inn))
                  else UB OutOfBounds) in
      match b_lik s with
      | None => Val (Outs ls None (b_md s))
      | Some v =>
          let* d := put_opt (b_md s) i (maha e z) in
          let* v' := put_at v i (de_nan (lik e z)) in
          Val (Outs ls (Some v') d)
      end
  | None =>
      let* l := put_opt (b_lik s) i 0%Qc in
      let* d := put_opt (b_md s) i 0%Qc in
      Val (Outs (b_lmk s) l d)
  end.

(** correct for several measurements, include/KalmanFilter.hpp:270-351.  The loop counters are
    int, so more than 2^31-1 measurements are outside this model. *)
Definition correct_batch (pose : Pose) (zs : list Meas) (cur : Lmk) (s : outs) : outcome (bool * outs) :=
  let '(ok, e) := measure pose cur in
  let n := length zs in
  if negb ok then
    let* s' := for_ n clear_step s in Val (false, s')
  else
    let s1 := Outs (resize lmk_new n (b_lmk s)) (option_map (resize 0%Qc n) (b_lik s))
                   (option_map (resize 0%Qc n) (b_md s)) in
    let* s' := for_ n (batch_step cur e zs) s1 in Val (true, s').

End Correct.

Arguments Out1 {Lmk} _ _ _ _.
Arguments o_ret {Lmk} _.
Arguments o_lmk {Lmk} _.
Arguments o_lik {Lmk} _.
Arguments o_md {Lmk} _.
Arguments Outs {Lmk} _ _ _.
Arguments b_lmk {Lmk} _.
Arguments b_lik {Lmk} _.
Arguments b_md {Lmk} _.
Arguments correct {Pose Lmk Meas Exp Inn} _ _ _ _ _ _ _ _ _ _ _ _ _.
Arguments correct_batch {Pose Lmk Meas Exp Inn} _ _ _ _ _ _ _ _ _ _.

(** ** One dimension *)
Local Open Scope Qc_scope.

(** A random vector of dimension one: mean and variance (include/RandomVec.hpp:69). *)
Record gauss1 := G1 { g_mean : Qc; g_var : Qc }.

(** Noise variance and range limits of MeasurementModel_Rng1D,
    include/MeasurementModel_Rng1D.hpp:59-65 and include/MeasurementModel.hpp:221. *)
Record cfg1 := Cfg1 { c_R : Qc; c_max : Qc; c_min : Qc }.

(** An expected measurement with the Jacobian with respect to the landmark; src/MeasurementModel_Rng1D.cpp:67-98. *)
Record exp1 := E1 { e_mean : Qc; e_var : Qc; e_H : Qc }.

(** Comparison of doubles, src/MeasurementModel_Rng1D.cpp:135. *)
Definition Qcltb (a b : Qc) : bool := match a ?= b with Lt => true | _ => false end.
(** Comparison of doubles, src/MeasurementModel_Rng1D.cpp:135. *)
Definition Qcleb (a b : Qc) : bool := negb (Qcltb b a).
(** fabs, src/MeasurementModel_Rng1D.cpp:133. *)
Definition Qcabs (a : Qc) : Qc := if Qcltb a 0 then - a else a.

(** MeasurementModel_Rng1D::measure, src/MeasurementModel_Rng1D.cpp:67-101. *)
Definition measure1 (c : cfg1) (pose lmk : gauss1) : bool * exp1 :=
  let z := g_mean lmk - g_mean pose in
  let var := g_var lmk + g_var pose + c_R c in
  (negb (Qcltb (c_max c) (Qcabs z) || Qcltb (Qcabs z) (c_min c)), E1 z var 1).

(** KalmanFilter::calculateInnovation, include/KalmanFilter.hpp:353-360. *)
Definition innovation1 (e : exp1) (z : Qc) : option Qc := Some (z - e_mean e).

(** Lines 249-252 of include/KalmanFilter.hpp for 1x1 matrices; S_inv is the inverse of the
    expected variance (0 when that is 0, where Eigen gives inf: the theorems assume a
    positive one). *)
Definition update1 (l : gauss1) (e : exp1) (i : Qc) : gauss1 :=
  let K := g_var l * e_H e * / e_var e in
  let P1 := (1 - K * e_H e) * g_var l in
  let P2 := (P1 + P1) / (Q2Qc 2) in
  G1 (g_mean l + K * i) P2.

(** isZero() with Eigen's default precision 1e-12, include/KalmanFilter.hpp:253. *)
Definition is_zero1 (l : gauss1) : bool := Qcleb (Qcabs (g_mean l)) (Q2Qc (1 # 1000000000000)).

(** mahalanobisDist2, include/RandomVec.hpp:428-435. *)
Definition maha1 (e : exp1) (z : Qc) : Qc := (z - e_mean e) * / e_var e * (z - e_mean e).

(** The filter for Landmark1d and MeasurementModel_Rng1D.  [lik] stays an argument; include/KalmanFilter.hpp:215-285. *)
Definition correct1 (lik : exp1 -> Qc -> option Qc) (checked : bool) (c : cfg1) :=
  correct (measure1 c) innovation1 update1 is_zero1 lik maha1 checked.

(** Part of the above, include/KalmanFilter.hpp:215-285. *)
Definition correct_batch1 (lik : exp1 -> Qc -> option Qc) (c : cfg1) :=
  correct_batch (measure1 c) innovation1 update1 lik maha1 (G1 0 0).

(** correct called for one measurement after the other, each time on the landmark the call
    before produced (landmark_updated may be landmark_current: it is written once, at line 254
    of include/KalmanFilter.hpp, after the last read of landmark_current); calls that return
    false leave it alone.  The list collects the return values. *)
Fixpoint run1 (lik : exp1 -> Qc -> option Qc) (checked : bool) (c : cfg1)
    (l : list (gauss1 * Qc)) (cur : gauss1) : outcome (list bool * gauss1) :=
  match l with
  | [] => Val ([], cur)
  | (pose, z) :: r =>
      let* o := correct1 lik checked c pose z cur cur None None in
      let* q := run1 lik checked c r (o_lmk o) in
      Val (o_ret o :: fst q, snd q)
  end.

(** ** Static prediction *)

(** A state with its time stamp; time in nanoseconds; include/RandomVec.hpp:655-660. *)
Record tstate := TS { t_g : gauss1; t_time : Z }.

(** StaticProcessModel::step, include/ProcessModel.hpp:314-327.  [Q] is None when
    inputNoiseDefined_ is false. *)
Definition static_step (Q : option Qc) (s : tstate) (dT : Z) : tstate :=
  match Q with
  | Some q => TS (G1 (g_mean (t_g s)) (g_var (t_g s) + q)) (t_time s + dT)%Z
  | None => s
  end.

(** A sequence of predictions (KalmanFilter::predict, include/KalmanFilter.hpp:208-216), each of
    the state the one before wrote. *)
Definition predictions (Q : option Qc) (dTs : list Z) (s : tstate) : tstate :=
  fold_left (fun t dT => static_step Q t dT) dTs s.
