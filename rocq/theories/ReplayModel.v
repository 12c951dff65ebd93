(** Model of the replay of recorded data by src/rbphdslam_VictoriaPark.cpp and
    src/fastslam_VictoriaPark.cpp (the same code up to the filter used; line numbers are those of the
    former), of the trajectories kept by include/ParticleFilter.hpp, and of the reading of numbers
    from configuration files.

    The filter is an observer: run gives the sequence of calls made on it.  Covariances, logging and
    the process noise of landmarks are left out. *)
From Coq Require Import ZArith QArith Qcanon Reals List Bool Ascii String.
From Verif Require Import Base QcLra TimeStampModel SimModel.
Import ListNotations.
Local Open Scope Z_scope.
Local Open Scope list_scope.

(** * Sensor messages *)

(** SensorManagerMsg, lines 186-191: time, sensorType as the integer read, idx. *)
Record msg := Msg { m_t : timestamp; m_kind : Z; m_idx : Z }.
(** Part of the above, src/rbphdslam_VictoriaPark.cpp:186-191. *)
Definition GPS : Z := 1.
(** Part of the above, src/rbphdslam_VictoriaPark.cpp:186-191. *)
Definition INPUT : Z := 2.
(** Part of the above, src/rbphdslam_VictoriaPark.cpp:186-191. *)
Definition LIDAR : Z := 3.

(** Lines 207-220: a line with its three numbers, or a line without them (then the variables that are
    used are uninitialised); idx is unsigned, so 0 becomes 2^32 - 1. *)
Definition read_msg (line : option (Q * Z * Z)) : outcome msg :=
  match line with
  | None => UB Uninit
  | Some (t, ty, ix) => let* ts := setTime t in Val (Msg ts ty ((ix - 1) mod 2 ^ 32))
  end.
(** Part of the above, src/rbphdslam_VictoriaPark.cpp:207-220. *)
Fixpoint read_msgs (lines : list (option (Q * Z * Z))) : outcome (list msg) :=
  match lines with
  | [] => Val []
  | l :: ls => let* m := read_msg l in omap (cons m) (read_msgs ls)
  end.

(** Lines 273-294: the raw scans.  The file is the list of its numbers; setTime is exact.  The vector
    msg.scan is reused: positions without a number in the file keep what they had.  [fuel] bounds the
    number of scans. *)
Definition BEAMS : nat := 361.
(** Part of the above, src/rbphdslam_VictoriaPark.cpp:273-294. *)
Fixpoint read_scans (fuel : nat) (old : list Q) (file : list Q) : outcome (list (timestamp * list Q)) :=
  match file with
  | [] => Val []
  | t :: rest =>
      if Qle_bool 0 t
      then match fuel with
           | O => OutOfFuel
           | S f =>
               let* ts := setTime t in
               let scan := firstn BEAMS rest ++ skipn (List.length (firstn BEAMS rest)) old in
               omap (cons (ts, scan)) (read_scans f scan (skipn BEAMS rest))
           end
      else Val []
  end.
(** Part of the above, src/rbphdslam_VictoriaPark.cpp:273-294. *)
Definition read_lidar (file : list Q) : outcome (list (timestamp * list Q)) :=
  read_scans (List.length file) (repeat 0%Q BEAMS) file.

(** std::vector::operator[]; as in src/rbphdslam_VictoriaPark.cpp:503-584. *)
Definition at_ {X : Type} (l : list X) (i : Z) : outcome X :=
  if (0 <=? i) && (i <? Z.of_nat (List.length l)) then of_option OutOfBounds (nth_error l (Z.to_nat i)) else UB OutOfBounds.

(** * The main loop *)
Section Run.
(** Measurements, scans, and the artificial clutter of one scan (lines 555-580) read from position p
    of the random numbers. *)
Context {A S : Type}.
Variable clutter : nat -> outcome (list A * nat).
Variables (inputs : list (Qc * Qc)) (scans : list S) (scale : Qc).

(** The calls on the filter: predict with time step, input (speed, steering), the flags useInputNoise
    and birthGaussianCheck (which FastSLAM::predict does not have); setLaserScan and update;
    src/rbphdslam_VictoriaPark.cpp:503-584. *)
Inductive event :=
| Predict : timestamp -> Qc * Qc -> bool -> bool -> event
| Update : S -> list A -> event.

(** Lines 456-465: t_km, u_km, isInInitialStationaryState, birthGaussianCheck, the measurements from
    zIdx on, and the position in the random numbers. *)
Record st := St { s_t : timestamp; s_u : Qc * Qc; s_still : bool; s_birth : bool; s_z : list (timestamp * A); s_p : nat }.

(** Lines 550-553. *)
Fixpoint take_same (t : timestamp) (zs : list (timestamp * A)) : list A * list (timestamp * A) :=
  match zs with
  | [] => ([], [])
  | (tz, z) :: zs' => if ts_eqb tz t then let r := take_same t zs' in (z :: fst r, snd r) else ([], zs)
  end.

(** Lines 520-522. *)
Definition scaled (u : Qc * Qc) : Qc * Qc := (fst u, (snd u * scale)%Qc).

(** One message: lines 503-528 and 529-584 with 624; other types are skipped. *)
Definition step (m : msg) (s : st) : outcome (list event * st) :=
  if m_kind m =? INPUT then
    let* dt := ts_sub (m_t m) (s_t s) in
    let e := Predict dt (s_u s) (negb (s_still s)) (s_birth s) in
    let* u := at_ inputs (m_idx m) in
    let u := scaled u in
    Val ([e], St (m_t m) u (if Qc_eq_dec (fst u) 0 then s_still s else false) false (s_z s) (s_p s))
  else if m_kind m =? LIDAR then
    let* dt := ts_sub (m_t m) (s_t s) in
    let e := Predict dt (s_u s) (negb (s_still s)) (s_birth s) in
    let b := take_same (m_t m) (s_z s) in
    let* c := clutter (s_p s) in
    let* sc := at_ scans (m_idx m) in
    Val ([e; Update sc (fst b ++ fst c)], St (m_t m) (s_u s) (s_still s) true (snd b) (snd c))
  else Val ([], s).

(** Part of the above, src/rbphdslam_VictoriaPark.cpp:503-528 and 529-584. *)
Fixpoint steps (ms : list msg) (s : st) : outcome (list event) :=
  match ms with
  | [] => Val []
  | m :: ms' => let* r := step m s in
                let* q := steps ms' (snd r) in
                Val (fst r ++ q)
  end.

(** Lines 466-471: nMessageToProcess_. *)
Definition to_process (n : Z) (ms : list msg) : list msg :=
  if n <=? 0 then ms else if Z.of_nat (List.length ms) <? n then ms else firstn (Z.to_nat n) ms.

(** run, lines 455-628. *)
Definition run (n : Z) (ms : list msg) (zs : list (timestamp * A)) : outcome (list event) :=
  steps (to_process n ms) (St ts_zero (0%Qc, 0%Qc) true true zs 0%nat).
End Run.
Arguments Predict {A S}. Arguments Update {A S}. Arguments St {A}. Arguments s_t {A}. Arguments s_u {A}.
Arguments s_still {A}. Arguments s_birth {A}. Arguments s_z {A}. Arguments s_p {A}.

(** deadReckoning, lines 326-357: the rows written, for a motion model [move] (without noise). *)
Section Reckoning.
Context {P : Type}.
Variable move : P -> Qc * Qc -> timestamp -> P.
Variables (inputs : list (Qc * Qc)) (scale : Qc).
(** Part of the above, src/rbphdslam_VictoriaPark.cpp:326-357. *)
Fixpoint reckoning (ms : list msg) (x : P) (t_km : timestamp) (u_km : Qc * Qc) : outcome (list (timestamp * P)) :=
  match ms with
  | [] => Val []
  | m :: ms' =>
      if m_kind m =? INPUT then
        let* dt := ts_sub (m_t m) t_km in
        let x := move x (fst u_km, (snd u_km * scale)%Qc) dt in
        let* u := at_ inputs (m_idx m) in
        omap (cons (m_t m, x)) (reckoning ms' x (m_t m) u)
      else reckoning ms' x t_km u_km
  end.
(** Line 334 reads sensorManagerMsgs_[0]. *)
Definition dead_reckoning (ms : list msg) (x0 : P) : outcome (list (timestamp * P)) :=
  match ms with
  | [] => UB OutOfBounds
  | m :: _ => reckoning ms x0 (m_t m) (0%Qc, 0%Qc)
  end.
End Reckoning.

(** * Artificial clutter, lines 441-453 and 555-580 *)
Section Clutter.
Local Open Scope R_scope.
Variables (mean rmin rmax bmin bmax : R) (rnd : nat -> R).

(** Lines 563-565: range, bearing, diameter. *)
Definition alarm (p : nat) : R * R * R :=
  (rnd p * (rmax - rmin) + rmin, rnd (S p) * ((bmax - bmin) + bmin) * PI / 180, 1).
(** Part of the above, src/rbphdslam_VictoriaPark.cpp:563-565. *)
Fixpoint alarms (n p : nat) : list (R * R * R) :=
  match n with
  | O => []
  | S n' => alarm p :: alarms n' (S (S p))
  end.
(** Part of the above, src/rbphdslam_VictoriaPark.cpp:563-565. *)
Definition add_clutter (p : nat) : outcome (list (R * R * R) * nat) :=
  if Rlt_dec 0 mean
  then let* n := clutter_count above_R (rnd p) (cmf_table mean) in
       Val (alarms n (S p), (S p + 2 * n)%nat)
  else Val ([], p).

(** Lines 376-377: the limits of the measurement model. *)
Definition model_limits : R * R := (bmin * PI / 180, bmax * PI / 180).
End Clutter.

(** * The landmark weight written by src/fastslam_VictoriaPark.cpp:609 *)
Definition logged_weight (w : R) : R := (1 - 1 / (1 + exp w))%R.

(** * Trajectories *)
Section Trajectories.
Context {P : Type}.

(** A Particle: pose, and the poses reached through prev, latest first (they are never changed after
    they are linked, so sharing does not matter).  include/Trajectory.hpp:56. *)
Record traj := Traj { t_pose : P; t_prev : list P }.

(** propagate, include/ParticleFilter.hpp:330-350, with [f i x] the sampled motion of particle i. *)
Definition moved_on (keep : bool) (f : nat -> P -> P) (ps : list traj) : list traj :=
  map (fun ip => let p := snd ip in
                 Traj (f (fst ip) (t_pose p)) (if keep then t_pose p :: t_prev p else t_prev p))
      (combine (seq 0 (List.length ps)) ps).

(** resample, lines 407-502: slot i becomes a copy of slot [sel i] (prev is copied, Particle.hpp:218-223).
    That a slot outside the set is never taken is C26. *)
Definition copied (sel : list nat) (ps : list traj) : option (list traj) :=
  fold_right (fun j acc => match nth_error ps j, acc with Some p, Some l => Some (p :: l) | _, _ => None end) (Some []) sel.

(** include/ParticleFilter.hpp:303-330 and 407-502: propagation and resampling. *)
Inductive pf_op :=
| Propagate : (nat -> P -> P) -> pf_op
| Resample : list nat -> pf_op.
(** Part of the above, include/ParticleFilter.hpp:303-330 and 407-502. *)
Fixpoint pf_run (keep : bool) (ops : list pf_op) (ps : list traj) : option (list traj) :=
  match ops with
  | [] => Some ps
  | Propagate f :: ops' => pf_run keep ops' (moved_on keep f ps)
  | Resample sel :: ops' => match copied sel ps with Some l => pf_run keep ops' l | None => None end
  end.

(** Lines 644-657: the rows of trajectory.dat. *)
Definition trajectory_rows (p : traj) : list P := rev (t_pose p :: t_prev p).
End Trajectories.
Arguments traj : clear implicits.

(** * Numbers in configuration files *)

(** The digits of a string, and what follows; for the values read in src/rbphdslam_VictoriaPark.cpp:90-170. *)
Fixpoint digits (s : string) : list Z * string :=
  match s with
  | EmptyString => ([], EmptyString)
  | String c s' =>
      let n := Z.of_nat (nat_of_ascii c) in
      if (48 <=? n) && (n <=? 57) then let r := digits s' in ((n - 48) :: fst r, snd r) else ([], s)
  end.
(** Part of the above, src/rbphdslam_VictoriaPark.cpp:90-170. *)
Definition number (ds : list Z) : Z := fold_left (fun a d => 10 * a + d) ds 0.
(** Part of the above, src/rbphdslam_VictoriaPark.cpp:90-170. *)
Definition pow10 (n : nat) : Z := 10 ^ Z.of_nat n.

(** boost::property_tree's stream translator for int: the text must be an integer (sign, white space
    and leading + are not modelled) and end there, and fit; src/rbphdslam_VictoriaPark.cpp:90-170. *)
Definition parse_int (s : string) : option Z :=
  let r := digits s in
  match fst r, snd r with
  | _ :: _, EmptyString => if in32 (number (fst r)) then Some (number (fst r)) else None
  | _, _ => None
  end.
(** The same for double: digits, and perhaps a point and digits (exponents are not modelled); exact;
    src/rbphdslam_VictoriaPark.cpp:90-170. *)
Definition parse_double (s : string) : option Q :=
  let r := digits s in
  match fst r, snd r with
  | _ :: _, EmptyString => Some (inject_Z (number (fst r)))
  | _ :: _, String "."%char s' =>
      let f := digits s' in
      match snd f with
      | EmptyString => Some (inject_Z (number (fst r)) + inject_Z (number (fst f)) / inject_Z (pow10 (List.length (fst f))))%Q
      | _ => None
      end
  | _, _ => None
  end.

(** pt.get(path, default): the default if there is no such node or its text is no number of the type
    of the default; src/rbphdslam_VictoriaPark.cpp:90-170. *)
Definition get_int (node : option string) (d : Z) : Z :=
  match node with Some s => match parse_int s with Some z => z | None => d end | None => d end.
(** Part of the above, src/rbphdslam_VictoriaPark.cpp:90-170. *)
Definition get_double (node : option string) (d : Q) : Q :=
  match node with Some s => match parse_double s with Some q => q | None => d end | None => d end.

(** Line 142 and line 163 (also RBPHDSLAM_2D.hpp:146, RBLMBSLAM_2D.hpp:142, fastslam2dSim.cpp:133):
    the default is the int nParticles_, so an int is read. *)
Definition n_particles (node : option string) : Z := get_int node 200.
(** Part of the above, fastslam2dSim.cpp:142, fastslam2dSim.cpp:163, RBPHDSLAM_2D.hpp:146, RBLMBSLAM_2D.hpp:142, fastslam2dSim.cpp:133. *)
Definition eff_threshold (n_node eff_node : option string) : Q := inject_Z (get_int eff_node (n_particles n_node)).
(** Line 129: mean of the artificial clutter; the default is the int 0. *)
Definition added_clutter (node : option string) : Q := inject_Z (get_int node 0).
(** Line 151: measurementNoiseInflationFactor, whose default is the double 1.0. *)
Definition noise_inflation (node : option string) : Q := get_double node 1.

(** setEffectiveParticleCountThreshold and the test of resample, include/ParticleFilter.hpp:395-398 and
    413-421, for normalised weights: true if resample returns without resampling. *)
Definition skips (t : Qc) (ws : list Qc) : bool :=
  let n := Q2Qc (inject_Z (Z.of_nat (List.length ws))) in
  let neff := (1 / fold_left (fun a w => a + w * w) ws 0)%Qc in
  Qcltb t neff && Qcltb (t / n)%Qc (neff / n)%Qc.
