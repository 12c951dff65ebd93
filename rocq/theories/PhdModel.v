(** Model of RBPHDFilter::updateMap and checkWeightingTableSize
    (include/RBPHDFilter.hpp:545-727 and 1201-1221).

    Simplifications.  Numbers are rationals.  A Gaussian of the map is a landmark (any type T)
    with its weight, the map is the list of them (class GaussianMixture has its own model).
    The measurement model and the Kalman filter are functions: [probDet] the detection
    probability and the close-to-limit flag of a landmark (600-601), [correct] likelihood,
    squared Mahalanobis distance and new landmark for a landmark and a measurement number
    (619; the batch correction writes all of them, include/KalmanFilter.hpp:266-330),
    [clutter] the clutter intensity of a measurement (646).  [expf] is exp, [tiny]
    denorm_min (568).  Timers are left out. *)
From Coq Require Import List Bool Arith QArith Qcanon.
From Verif Require Import Base ListUtil QcLra Loop.
Import ListNotations.
Local Open Scope nat_scope.

Section Phd.
Variable T : Type.
Variable probDet : T -> Qc * bool.
Variable correct : T -> nat -> Qc * Qc * T.
Variable clutter : nat -> Qc.
Variables gateMD birthW tiny : Qc.
Variable expf : Qc -> Qc.

(** One entry of wTables_ and one of mTables_ with their shape, include/RBPHDFilter.hpp:258-261;
    None is a NULL pointer. *)
Record tables := TB { trows : nat; tcols : nat; wT : nat -> nat -> Qc; mT : nat -> nat -> option T }.

(** boost::multi_array access, checked; include/RBPHDFilter.hpp:258-259. *)
Definition rdw (t : tables) (m z : nat) : outcome Qc :=
  if (m <? trows t) && (z <? tcols t) then Val (wT t m z) else UB OutOfBounds.
(** Part of the above, include/RBPHDFilter.hpp:258-259. *)
Definition rdm (t : tables) (m z : nat) : outcome (option T) :=
  if (m <? trows t) && (z <? tcols t) then Val (mT t m z) else UB OutOfBounds.
(** Part of the above, include/RBPHDFilter.hpp:258-259. *)
Definition set2 {A : Type} (f : nat -> nat -> A) (m z : nat) (v : A) : nat -> nat -> A :=
  fun i j => if (i =? m) && (j =? z) then v else f i j.
(** Part of the above, include/RBPHDFilter.hpp:258-259. *)
Definition wrw (t : tables) (m z : nat) (v : Qc) : outcome tables :=
  if (m <? trows t) && (z <? tcols t) then Val (TB (trows t) (tcols t) (set2 (wT t) m z v) (mT t)) else UB OutOfBounds.
(** Part of the above, include/RBPHDFilter.hpp:258-259. *)
Definition wrm (t : tables) (m z : nat) (v : option T) : outcome tables :=
  if (m <? trows t) && (z <? tcols t) then Val (TB (trows t) (tcols t) (wT t) (set2 (mT t) m z v)) else UB OutOfBounds.

(** The tables of a new filter, include/RBPHDFilter.hpp:388-394. *)
Definition tables_new : tables := TB 100 100 (fun _ _ => 0%Qc) (fun _ _ => None).

(** checkWeightingTableSize, include/RBPHDFilter.hpp:1201-1221; "n *= 1.2" truncates.
    resize keeps the entries inside both shapes. *)
Definition grow (have need : nat) : nat := if have <=? need then need * 12 / 10 else have.
(** Part of the above, include/RBPHDFilter.hpp:1201-1221. *)
Definition checkTable (t : tables) (nRows nCols : nat) : tables :=
  if (trows t <=? nRows) || (tcols t <=? nCols) then
    TB (grow (trows t) nRows) (grow (tcols t) nCols)
       (fun i j => if (i <? trows t) && (j <? tcols t) then wT t i j else 0%Qc)
       (fun i j => if (i <? trows t) && (j <? tcols t) then mT t i j else None)
  else t.

(** State of the Kalman filter loop: tables, Pd[], landmarkCloseToSensingLimit[],
    nLandmarksInFOV_ and the number of landmarks allocated with new (629). *)
Record kf := KF { ktb : tables; kpd : list Qc; kclose : list bool; kfov : nat; knew : nat }.

(** Loop over the measurements, include/RBPHDFilter.hpp:621-633 and, for Pd = 0, 636-639. *)
Definition kf_cell (lm : T) (p pw : Qc) (m z : nat) (s : tables * nat) : outcome (tables * nat) :=
  let '(lik, md2, lmNew) := correct lm z in
  if Qc_eq_dec p 0 then
    let* t1 := wrm (fst s) m z None in
    let* t2 := wrw t1 m z 0%Qc in
    Val (t2, snd s)
  else if Qc_eq_dec lik 0 then
    let* t1 := wrm (fst s) m z None in
    let* t2 := wrw t1 m z 0%Qc in
    Val (t2, snd s)
  else if Qcltb gateMD md2 then
    let* t1 := wrm (fst s) m z None in
    let* t2 := wrw t1 m z 0%Qc in
    Val (t2, snd s)
  else
    let* t1 := wrm (fst s) m z (Some lmNew) in
    let* t2 := wrw t1 m z (pw * lik)%Qc in
    Val (t2, S (snd s)).

(** Loop over the Gaussians, include/RBPHDFilter.hpp:596-642. *)
Definition kf_row (mix : list (T * Qc)) (nZ : nat) (m : nat) (s : kf) : outcome kf :=
  match nth_error mix m with
  | None => UB OutOfBounds
  | Some (lm, w) =>
    let '(p0, close) := probDet lm in
    let p := if close then 1%Qc else p0 in
    let fov := if Qc_eq_dec p 0 then kfov s else S (kfov s) in
    let* r := for_ nZ (kf_cell lm p (p * w)%Qc m) (ktb s, knew s) in
    Val (KF (fst r) (kpd s ++ [p]) (kclose s ++ [close]) fov (snd r))
  end.

(** Normalisation for a measurement, include/RBPHDFilter.hpp:645-661; s is the tables and
    likelihoodProd. *)
Definition normalise (nM : nat) (z : nat) (s : tables * Qc) : outcome (tables * Qc) :=
  let* sum := for_ nM (fun m v => let* w := rdw (fst s) m z in Val (v + w)%Qc) (clutter z) in
  if Qc_eq_dec sum 0 then Val (fst s, (snd s * sum)%Qc)
  else
    let* t := for_ nM (fun m t => let* w := rdw t m z in wrw t m z (w / sum)%Qc) (fst s) in
    Val (t, (snd s * sum)%Qc).

(** New Gaussians, include/RBPHDFilter.hpp:676-685; the table entry is handed to the map. *)
Definition add_cell (m z : nat) (s : tables * list (T * Qc)) : outcome (tables * list (T * Qc)) :=
  let* e := rdm (fst s) m z in
  match e with
  | None => Val s
  | Some lm =>
    let* w := rdw (fst s) m z in
    if Qcltb 0 w then
      let* t := wrm (fst s) m z None in
      Val (t, snd s ++ [(lm, w)])
    else Val s
  end.
(** Part of the above, include/RBPHDFilter.hpp:676-685. *)
Definition add_all (nM nZ : nat) (s : tables * list (T * Qc)) : outcome (tables * list (T * Qc)) :=
  for_ nM (fun m s => for_ nZ (add_cell m) s) s.

(** Weight of an existing Gaussian, include/RBPHDFilter.hpp:690-707. *)
Definition missed (t : tables) (pds : list Qc) (closes : list bool) (nZ m : nat) (mix : list (T * Qc))
  : outcome (list (T * Qc)) :=
  match nth_error mix m, nth_error pds m, nth_error closes m with
  | Some (lm, w), Some p, Some close =>
    let wk := ((1 - p) * w)%Qc in
    let* wk2 :=
      if close && Qcltb birthW w then
        let* sum := for_ nZ (fun z v => let* x := rdw t m z in Val (v + x)%Qc) 0%Qc in
        let delta := (p * w - sum)%Qc in
        if Qcltb 0 delta then Val (if Qcltb 1 (wk + delta)%Qc then 1%Qc else (wk + delta)%Qc) else Val wk
      else Val wk in
    Val (upd mix m (lm, wk2))
  | _, _, _ => UB OutOfBounds
  end.

(** Whether a measurement has a non-zero entry, include/RBPHDFilter.hpp:713-719. *)
Fixpoint used (t : tables) (z m n : nat) : outcome bool :=
  match n with
  | 0 => Val false
  | S n' =>
    let* w := rdw t m z in
    if Qc_eq_dec w 0 then used t z (S m) n' else Val true
  end.
(** unused_measurements_, include/RBPHDFilter.hpp:711-722. *)
Definition unused_list (t : tables) (nM nZ : nat) : outcome (list nat) :=
  for_ nZ (fun z l => let* b := used t z 0 nM in Val (if b then l else l ++ [z])) [].

(** What an update of one particle leaves behind: table, map, unused_measurements_,
    nLandmarksInFOV_, factor of the particle weight (1 unless useClusterProcess_), landmarks
    allocated with new and landmarks handed to the map; include/RBPHDFilter.hpp:544-728. *)
Record result := RES { rtb : tables; rmix : list (T * Qc); runused : list nat; rfov : nat; rweight : Qc;
                       rnew : nat; rhanded : nat }.

(** updateMap, include/RBPHDFilter.hpp:545-727. *)
Definition updateMap (cluster : bool) (t0 : tables) (mix : list (T * Qc)) (nZ : nat) : outcome result :=
  let nM := length mix in
  if nM =? 0 then Val (RES t0 mix (seq 0 nZ) 0 1%Qc 0 0)
  else
    let wsum := fold_left (fun v g => (v + snd g)%Qc) mix tiny in
    let t1 := checkTable t0 nM nZ in
    let* k := for_ nM (kf_row mix nZ) (KF t1 [] [] 0 0) in
    let* n := for_ nZ (normalise nM) (ktb k, 1%Qc) in
    let* a := add_all nM nZ (fst n, mix) in
    let* mx := for_ nM (missed (fst a) (kpd k) (kclose k) nZ) (snd a) in
    let* un := unused_list (fst a) nM nZ in
    Val (RES (fst a) mx un (kfov k) (if cluster then (expf wsum * snd n)%Qc else 1%Qc)
             (knew k) (length (snd a) - nM)).
End Phd.

(** One call of updateMap by the thread that owns the table: the particle's map, the number of
    measurements and, for its pose, the measurement model (arguments as above); include/RBPHDFilter.hpp:544-728. *)
Record job (T : Type) := JOB { jpd : T -> Qc * bool; jcorrect : T -> nat -> Qc * Qc * T; jclutter : nat -> Qc;
                               jcluster : bool; jmix : list (T * Qc); jnz : nat }.

(** Loop over the particles of a thread, over any number of filter updates,
    include/RBPHDFilter.hpp:476-479.  The table is only touched by updateMap. *)
Fixpoint updates (T : Type) (gateMD birthW tiny : Qc) (expf : Qc -> Qc) (t : tables T) (jobs : list (job T))
  : outcome (tables T * list (result T)) :=
  match jobs with
  | [] => Val (t, [])
  | j :: rest =>
    let* r := updateMap T (jpd T j) (jcorrect T j) (jclutter T j) gateMD birthW tiny expf (jcluster T j) t (jmix T j) (jnz T j) in
    let* s := updates T gateMD birthW tiny expf (rtb T r) rest in
    Val (fst s, r :: snd s)
  end.
