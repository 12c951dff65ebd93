(** Model of src/MeasurementModel_VictoriaPark.cpp: trees as circles seen by a laser scanner.

    Over the reals, so rounding is outside the model; the casts of floor and ceil to int are
    exact.  Reads of laserscan_ and of the table of detection probabilities outside their size
    are UB OutOfBounds.  Times are left out: the measurement gets the time of the pose. *)
From Coq Require Import Reals List Bool ZArith.
From Verif Require Import Base AngleModel SensorModel.
Import ListNotations.
Local Open Scope R_scope.

(** Landmark3d and Measurement3d: position or range and bearing, with the diameter;
    src/MeasurementModel_VictoriaPark.cpp:76-108. *)
Record tree := Tree { t_x : R; t_y : R; t_d : R }.
(** Part of the above, src/MeasurementModel_VictoriaPark.cpp:76-108. *)
Record circ := Circ { m_r : R; m_b : R; m_d : R }.

(** R_ and Slb_, set by setNoise, lines 66-72. *)
Record vnoise := VNoise { n_R : mx; n_lb : R }.

(** Config, include/MeasurementModel_VictoriaPark.hpp:134-147. *)
Record vcfg := VCfg {
  c_tab : list R;                       (* probabilityOfDetection_ *)
  c_bmax : R; c_bmin : R; c_rmax : R; c_rmin : R;
  c_buf : R;                            (* bufferZonePd_ *)
  c_clut : R                            (* expectedClutterNumber_ *)
}.

(** A 3x3 matrix with a block and a diagonal entry, lines 94-96, 129-131 and 144-146. *)
Definition with_block (A : mx) (d : R) : mx := fun i j =>
  if (Nat.ltb i 2 && Nat.ltb j 2)%bool then A i j else if (Nat.eqb i 2 && Nat.eqb j 2)%bool then d else 0.

(** Lines 81-83 and 112-114: the pose turned clockwise by a quarter, without its covariance. *)
Definition turned (p : pose2) : pose2 := P2 (p_x p) (p_y p) (p_t p - PI / 2).

(** What measure writes: the mean, Jacobian with respect to the landmark and covariance
    (absent for a range of zero), and the matrix behind jacobian_wrt_pose;
    src/MeasurementModel_VictoriaPark.cpp:104-150. *)
Record vexp := VExp { e_mean : circ; e_lin : option (mx * mx); e_pose : mx }.

(** measure, lines 104-151 (both branches write the same measurement).  PS is the covariance of
    the pose and Jp what jacobian_wrt_pose points to before the call; the return value of
    measure_rb is dropped and the return value is always true. *)
Definition vp_measure (fuel : nat) (c : scfg) (n : vnoise) (p : pose2) (PS : mx) (l : tree) (LS Jp : mx)
    : outcome (bool * vexp) :=
  let* e := measure_rb fuel c (turned p) (fun _ _ => 0) (t_x l, t_y l) LS (n_R n) in
  let r := fst (x_mean e) in
  Val (true,
       VExp (Circ r (snd (x_mean e)) (t_d l))
            (match x_lin e with
             | None => None
             | Some L => Some (with_block (l_lmk L) 1,
                               with_block (l_cov L) (LS 2%nat 2%nat + n_R n 2%nat 2%nat + r ^ 2 * n_lb n))
             end)
            Jp).

(** inverseMeasure, lines 75-102. *)
Definition vp_inverse (n : vnoise) (p : pose2) (z : circ) : tree * mx :=
  let i := inverse_rb (turned p) (m_r z, m_b z) (n_R n) in
  (Tree (fst (fst i)) (snd (fst i)) (m_d z), with_block (snd i) (n_R n 2%nat 2%nat)).

(** ** Detection *)

(** floor and ceil as integers; src/MeasurementModel_VictoriaPark.cpp:227 and 236. *)
Definition floorR (x : R) : Z := Int_part x.
(** Part of the above, src/MeasurementModel_VictoriaPark.cpp:227 and 236. *)
Definition ceilR (x : R) : Z := (- Int_part (- x))%Z.

(** Line 225: atan(modified_radius/measMean[0]); with a range of zero the quotient is infinite
    or NaN. *)
Definition half_angle (radius range : R) : option R :=
  if Req_EM_T range 0
  then (if Rlt_dec 0 radius then Some (PI / 2) else if Rlt_dec radius 0 then Some (- (PI / 2)) else None)
  else Some (atan (radius / range)).

(** Lines 227 and 236: number of beams and first beam, 720 beams to a turn. *)
Definition beams (g : R) : Z := floorR (2 * g * 720 / (2 * PI)).
(** Part of the above, src/MeasurementModel_VictoriaPark.cpp:227 and 236. *)
Definition first_beam (b g : R) : Z := ceilR ((b - g) * 720 / (2 * PI)).

(** Lines 239-242. *)
Fixpoint down720 (fuel : nat) (z : Z) : outcome Z :=
  match fuel with
  | O => OutOfFuel
  | S f => if (720 <=? z)%Z then down720 f (z - 720)%Z else Val z
  end.
(** Part of the above, src/MeasurementModel_VictoriaPark.cpp:239-242. *)
Fixpoint up720 (fuel : nat) (z : Z) : outcome Z :=
  match fuel with
  | O => OutOfFuel
  | S f => if (z <? 0)%Z then up720 f (z + 720)%Z else Val z
  end.
(** Part of the above, src/MeasurementModel_VictoriaPark.cpp:239-242. *)
Definition beam720 (fuel : nat) (z : Z) : outcome Z := let* y := down720 fuel z in up720 fuel y.

(** operator[] of std::vector<double> with an int; src/MeasurementModel_VictoriaPark.cpp:251. *)
Definition entry (l : list R) (i : Z) : outcome R :=
  if (i <? 0)%Z then UB OutOfBounds else of_option OutOfBounds (nth_error l (Z.to_nat i)).

(** Line 251. *)
Definition clear (scan : list R) (minrange : R) (b : Z) : outcome bool :=
  let* v := entry scan b in
  Val (if Rlt_dec minrange v then true else if Req_EM_T v 0 then true else false).

(** The loop of lines 249-253, from beam b to beam e. *)
Fixpoint count_clear (fuel : nat) (scan : list R) (minrange : R) (b e : Z) (n : nat) : outcome nat :=
  match fuel with
  | O => OutOfFuel
  | S f =>
      if (b =? e)%Z then Val n
      else let* k := clear scan minrange b in
           count_clear f scan minrange ((b + 1) mod 720)%Z e (if k then S n else n)
  end.

(** probabilityOfDetection2 from line 215 on: value and isCloseToSensingLimit for the expected
    measurement z.  "size() > maxNumPoints" compares without sign, so it is false for a negative
    number. *)
Definition vp_score (fuel : nat) (c : vcfg) (scan : list R) (z : circ) : outcome (R * bool) :=
  if Rlt_dec (c_bmax c) (m_b z) then Val (0, false)
  else if Rlt_dec (m_b z) (c_bmin c) then Val (0, false)
  else if Rlt_dec (m_r z) (c_rmin c) then Val (0, false)
  else if Rlt_dec (c_rmax c) (m_r z) then Val (0, false)
  else
    let radius := m_d z / 2 in
    let* g := of_option IntOverflow (half_angle radius (m_r z)) in
    let n := beams g in
    let known := ((0 <=? n)%Z && (n <? Z.of_nat (length (c_tab c)))%Z)%bool in
    let full := nth (Z.to_nat n) (c_tab c) 0 in
    if (known && (if Req_EM_T full 0 then true else false))%bool then Val (0, false)
    else
      let close := (known && (if Rlt_dec full (c_buf c) then true else false))%bool in
      let b0 := first_beam (m_b z) g in
      let* minb := beam720 fuel b0 in
      let* maxb := beam720 fuel (b0 + n) in
      let minrange := m_r z - radius - 6 * (3 / 100) in
      let* k := if (0 <? (maxb - minb + 720) mod 720)%Z
                then count_clear fuel scan minrange minb maxb 0 else Val 0%nat in
      let i := if (length (c_tab c) <=? k)%nat then (Z.of_nat (length (c_tab c)) - 1)%Z else Z.of_nat k in
      let* v := entry (c_tab c) i in
      Val (v, if Req_EM_T v 0 then false else close).

(** probabilityOfDetection2, lines 202-265. *)
Definition vp_pd2 (fuel : nat) (sc : scfg) (nz : vnoise) (c : vcfg) (scan : list R) (p : pose2) (l : tree)
    : outcome (R * bool) :=
  let* e := vp_measure fuel sc nz p (fun _ _ => 0) l (fun _ _ => 0) (fun _ _ => 0) in
  vp_score fuel c scan (e_mean (snd e)).

(** Lines 165-170: the direction of the neighbours, from the angle of the point (range, bearing). *)
Definition side (p : pose2) (z : circ) : R * R :=
  let a := atan2 (m_b z) (m_r z) + p_t p in (- sin a, cos a).

(** Lines 171-173: how far to look; None for NaN, the root of a negative number. *)
Definition reach (LS : mx) (u : R * R) : option R :=
  let q := (fst u * LS 0%nat 0%nat + snd u * LS 1%nat 0%nat) * fst u +
           (fst u * LS 0%nat 1%nat + snd u * LS 1%nat 1%nat) * snd u in
  if Rlt_dec q 0 then None else Some (Rmax (3 * sqrt q) (2 / 10)).

(** The loop of line 182 as the list of i; false for NaN. *)
Fixpoint steps (fuel : nat) (d : R) (s : option R) (i : Z) : outcome (list Z) :=
  match s with
  | None => Val []
  | Some x =>
    match fuel with
    | O => OutOfFuel
    | S f => if Rlt_dec (IZR (i - 1) * (2 * d)) x
             then let* r := steps f d s (i + 1)%Z in Val (i :: r)
             else Val []
    end
  end.

(** Lines 183 and 186. *)
Definition shifted (l : tree) (u : R * R) (i : Z) : tree :=
  Tree (t_x l + IZR i * 2 * t_d l * fst u) (t_y l + IZR i * 2 * t_d l * snd u) (t_d l).

(** The trees looked at, in the order of lines 182-190. *)
Definition looked_at (l : tree) (u : R * R) (is : list Z) : list tree :=
  flat_map (fun i => [shifted l u i; shifted l u (- i)]) is ++ [l].

(** The calls in this order; src/MeasurementModel_VictoriaPark.cpp:180-190. *)
Fixpoint each {A B : Type} (f : A -> outcome B) (l : list A) : outcome (list B) :=
  match l with
  | [] => Val []
  | a :: l' => let* b := f a in let* r := each f l' in Val (b :: r)
  end.

(** std::max_element and std::min_element of a vector that is not empty;
    src/MeasurementModel_VictoriaPark.cpp:193 and 198. *)
Definition greatest (l : list R) : R := match l with [] => 0 | x :: l' => fold_left Rmax l' x end.
(** Part of the above, src/MeasurementModel_VictoriaPark.cpp:193 and 198. *)
Definition least (l : list R) : R := match l with [] => 0 | x :: l' => fold_left Rmin l' x end.

(** probabilityOfDetection, lines 153-199. *)
Definition vp_pd (fuel : nat) (sc : scfg) (nz : vnoise) (c : vcfg) (scan : list R) (p : pose2) (l : tree) (LS : mx)
    : outcome (R * bool) :=
  let* e := vp_measure fuel sc nz p (fun _ _ => 0) l LS (fun _ _ => 0) in
  let u := side p (e_mean (snd e)) in
  let* is := steps fuel (t_d l) (reach LS u) 1 in
  let* rs := each (vp_pd2 fuel sc nz c scan p) (looked_at l u is) in
  let vs := map fst rs in
  let close := snd (last rs (0, false)) in
  Val (greatest vs,
       if Req_EM_T (least vs) 0 then (if Rlt_dec 0 (greatest vs) then true else close) else close).

(** ** Clutter *)

(** Lines 271-275: the sum over neighbours. *)
Fixpoint neighbours (l : list R) : R :=
  match l with
  | x :: ((y :: _) as l') => neighbours l' + y * x
  | _ => 0
  end.

(** FoVArea, lines 271-277. *)
Definition fov_area (scan : list R) : outcome R :=
  match scan with
  | [] => UB OutOfBounds
  | x :: _ => Val ((neighbours scan + x * last scan 0) * (sin (PI / 360) / 2))
  end.

(** setLaserScan, lines 267-281, as the clutterIntensity_ it stores and clutterIntensity returns
    (lines 283-286); None for a division by zero. *)
Definition vp_clutter (c : vcfg) (scan : list R) : outcome (option R) :=
  let* a := fov_area scan in
  Val (if Req_EM_T a 0 then None else Some (c_clut c / a)).

(** clutterIntensityIntegral, lines 288-291. *)
Definition vp_integral (c : vcfg) : R := c_clut c.
