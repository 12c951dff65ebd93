(** Model of RFSCeresSLAM (include/RFSCeresSLAM.hpp), first part: inputs and measurements, the
    initial map, the parameter vector handed to the solver, and the value of the measurement
    log-likelihood.  The gradients are in CeresGradModel.v.

    Simplifications.  Z_[k] and DA_[k] are filled together (lines 317-318): they are one list of
    pairs (measurement, association).  Association -1 is unknown, -2 a known false alarm (line 229).
    assert( x == x ) tests for not-a-number and is left out: there is none in the model. *)
From Coq Require Import ZArith List Bool Arith QArith Qcanon.
From Verif Require Import Base ListUtil Loop QcLra PermanentSpec PartitionModel RfsModel PsoModel.
Import ListNotations.
Local Open Scope nat_scope.

(** ** Inputs and measurements *)
Section Filling.
Context {I M : Type}.
Variable itime : I -> Z.   (* TInput::getTime *)
Variable mtime : M -> Z.   (* TMeasurement::getTime *)

(** inputs_, time_, Z_ with DA_, include/RFSCeresSLAM.hpp:227-230; the two methods are the text of
    RFSPSOSLAM with a resize of DA_. *)
Definition cbatch := @batch I (M * Z).
(** addInput, include/RFSCeresSLAM.hpp:268-278. *)
Definition c_addInput (u : I) (b : cbatch) : cbatch := addInput itime u b.
(** setInputs, include/RFSCeresSLAM.hpp:280-295. *)
Definition c_setInputs (us : list I) (b : cbatch) : cbatch := setInputs itime us b.
(** addMeasurement( z , da ), include/RFSCeresSLAM.hpp:305-321. *)
Definition c_addMeasurement (z : M) (da : Z) (b : cbatch) : outcome cbatch :=
  addMeasurement (fun p => mtime (fst p)) (z, da) b.
(** addMeasurement( Z , DA ), include/RFSCeresSLAM.hpp:333-340: DA[ i ] for every i < Z.size(). *)
Definition c_addMeasurements (zl : list M) (das : list Z) (b : cbatch) : outcome cbatch :=
  for_ (length zl) (fun i b =>
    let* z := of_option OutOfBounds (nth_error zl i) in
    let* da := of_option OutOfBounds (nth_error das i) in
    c_addMeasurement z da b) b.

(** rfsMeasurementLikelihood( trajectory_gradient, landmark_gradient ),
    include/RFSCeresSLAM.hpp:518-558, as far as vectors are read, for a trajectory of as many poses
    as initTrajectory makes (line 368): the scans in the order of evaluation and, for every motion
    term, the poses it joins, the input and the time step. *)
Definition c_motion (b : cbatch) (k : nat) : outcome (nat * nat * I * Z) :=
  let* t1 := of_option OutOfBounds (nth_error (times b) k) in
  let* t0 := of_option OutOfBounds (nth_error (times b) (k - 1)) in
  let* u := of_option OutOfBounds (nth_error (inputs b) (k - 1)) in
  guard (k <? S (length (inputs b))) OutOfBounds (Val (k, k - 1, u, (t1 - t0)%Z)).
(** Part of the above, include/RFSCeresSLAM.hpp:518-558, include/RFSCeresSLAM.hpp:368. *)
Definition c_compared (b : cbatch) : outcome (list (nat * list (M * Z)) * list (nat * nat * I * Z)) :=
  let n := S (length (inputs b)) in
  let* z0 := of_option OutOfBounds (nth_error (zs b) 0) in
  let* m1 := c_motion b 1 in
  let* ms := for_ (n - 2) (fun i acc => let* m := c_motion b (i + 2) in Val (acc ++ [m])) [m1] in
  let* ss := for_ (n - 1) (fun i acc =>
      let* z := of_option OutOfBounds (nth_error (zs b) (i + 1)) in Val (acc ++ [(i + 1, z)])) [(0, z0)] in
  Val (ss, ms).
End Filling.

(** ** The initial map *)
Section Map.
Context {M L : Type}.
Variable inverse : nat -> M -> L.   (* inverseMeasure( trajectory_[k], z, . ) *)
Variable dflt : L.                  (* TLandmark(): at the origin *)
Variable draw : nat -> bool.        (* drand48() < mapFromMeasurementProb_, in order of the calls *)

(** First loop of initMap, include/RFSCeresSLAM.hpp:384-394: size of landmarks_. *)
Definition map_size (scans : list (list (M * Z))) : nat :=
  fold_left (fun s zd => if ((0 <=? snd zd) && (Z.of_nat s <=? snd zd))%Z then S (Z.to_nat (snd zd)) else s)
    (concat scans) 0.

(** Second loop, include/RFSCeresSLAM.hpp:396-408; a slot is None until initialised. *)
Definition put (k : nat) (l : list (option L)) (zd : M * Z) : list (option L) :=
  if (0 <=? snd zd)%Z then
    match nth_error l (Z.to_nat (snd zd)) with
    | Some None => upd l (Z.to_nat (snd zd)) (Some (inverse k (fst zd)))
    | _ => l
    end
  else l.
(** Part of the above, include/RFSCeresSLAM.hpp:396-408. *)
Fixpoint put_all (k : nat) (scans : list (list (M * Z))) (l : list (option L)) : list (option L) :=
  match scans with
  | [] => l
  | s :: r => put_all (S k) r (fold_left (put k) s l)
  end.

(** Third loop, include/RFSCeresSLAM.hpp:410-421; [c] counts the draws. *)
Definition birth (k : nat) (s : nat * list L) (zd : M * Z) : nat * list L :=
  if (snd zd =? -1)%Z then (S (fst s), if draw (fst s) then snd s ++ [inverse k (fst zd)] else snd s) else s.
(** Part of the above, include/RFSCeresSLAM.hpp:410-421. *)
Fixpoint births (k : nat) (scans : list (list (M * Z))) (s : nat * list L) : nat * list L :=
  match scans with
  | [] => s
  | x :: r => births (S k) r (fold_left (birth k) x s)
  end.

(** initMap, include/RFSCeresSLAM.hpp:378-428. *)
Definition initMap (scans : list (list (M * Z))) : list L :=
  let slots := put_all 0 scans (repeat None (map_size scans)) in
  snd (births 0 scans (0, map (fun o => match o with Some x => x | None => dflt end) slots)).
End Map.

(** ** The parameter vector *)
Section Parameters.
Context {A : Type}.
Variable zero : A.
Variables P D : nat.   (* PoseDim, LandmarkDim *)

(** NumParameters, include/RFSCeresSLAM.hpp:431-436, for a trajectory with a pose. *)
Definition num_parameters (nT nL : nat) : nat := (nT - 1) * P + nL * D.

(** a[i] = x on the array of init, which new leaves uninitialised (None); include/RFSCeresSLAM.hpp:348-357. *)
Definition wr (a : list (option A)) (i : nat) (x : A) : outcome (list (option A)) :=
  guard (i <? length a) OutOfBounds (Val (upd a i (Some x))).
(** x[k][d]; include/RFSCeresSLAM.hpp:351 and 357. *)
Definition comp (x : list (list A)) (k d : nat) : outcome A :=
  let* r := of_option OutOfBounds (nth_error x k) in of_option OutOfBounds (nth_error r d).

(** The array init returns, include/RFSCeresSLAM.hpp:348-360. *)
Definition c_init (traj lms : list (list A)) : outcome (list (option A)) :=
  let* a := for_ (length traj - 1) (fun i a => for_ P (fun d a =>
              let* x := comp traj (i + 1) d in wr a (i * P + d) x) a)
            (repeat None (num_parameters (length traj) (length lms))) in
  for_ (length lms) (fun m a => for_ D (fun d a =>
    let* x := comp lms m d in wr a ((length traj - 1) * P + m * D + d) x) a) a.

(** x[k][d] = v; include/RFSCeresSLAM.hpp:464 and 473. *)
Definition set_comp (x : list (list A)) (k d : nat) (v : A) : outcome (list (list A)) :=
  let* r := of_option OutOfBounds (nth_error x k) in
  guard (d <? length r) OutOfBounds (Val (upd x k (upd r d v))).

(** Evaluate, include/RFSCeresSLAM.hpp:477-495: what it makes of trajectory_ and landmarks_. *)
Definition c_load (a : list A) (traj lms : list (list A)) : outcome (list (list A) * list (list A)) :=
  let* t := for_ P (fun d t => set_comp t 0 d zero) traj in
  let* t := for_ (length traj - 1) (fun i t => for_ P (fun d t =>
              let* v := of_option OutOfBounds (nth_error a (i * P + d)) in set_comp t (i + 1) d v) t) t in
  let* l := for_ (length lms) (fun m l => for_ D (fun d l =>
              let* v := of_option OutOfBounds (nth_error a ((length traj - 1) * P + m * D + d)) in
              set_comp l m d v) l) lms in
  Val (t, l).

(** Evaluate, include/RFSCeresSLAM.hpp:500-512: the gradient array of the caller, from the
    gradients of the likelihood by the trajectory and by the landmarks. *)
Definition c_gradient (neg : A -> A) (nT : nat) (tg lg : list A) (g : list (option A)) : outcome (list (option A)) :=
  let* g := for_ (length tg) (fun i g => let* x := of_option OutOfBounds (nth_error tg i) in wr g i (neg x)) g in
  for_ (length lg) (fun i g => let* x := of_option OutOfBounds (nth_error lg i) in wr g ((nT - 1) * P + i) (neg x)) g.
End Parameters.

(** ** Value of the measurement log-likelihood of one scan

    As in RfsModel.v logarithms are not taken: sums are products.  exp( BIG_NEG_NUM ) is [eps];
    an entry with that logarithm counts as zero in the table, its exponential being zero in double
    precision next to the best assignment. *)
Section Value.
Variable lik : nat -> nat -> Qc.    (* Gaussian likelihood of landmark m and measurement n *)
Variable pd : nat -> Qc.            (* probabilityOfDetection of landmark m *)
Variable clu : nat -> Qc.           (* clutterIntensity of measurement n *)
Variable da : nat -> Z.             (* DA_[k][n] *)
Variable eps thr eint : Qc.         (* exp of BIG_NEG_NUM, of the threshold, of -clutterIntensityIntegral *)
Variable kbest : nat -> nat -> (nat -> nat -> Qc) -> list (list nat).

(** lmInFovIdx, include/RFSCeresSLAM.hpp:895-911. *)
Definition in_fov (M : nat) : list nat := filter (fun m => Qcltb 0 (pd m)) (seq 0 M).

(** clutter[n], include/RFSCeresSLAM.hpp:915-926. *)
Definition clutter (n : nat) : Qc :=
  if (da n =? -1)%Z then (if Qcltb (clu n) eps then eps else clu n)
  else if (da n =? -2)%Z then 1%Qc else eps.

(** L[m][n], include/RFSCeresSLAM.hpp:957-979; m counts the landmarks in view [fv].  Both
    branches of the test of DA_ (973-976) are the same expression. *)
Definition odds (fv : list nat) (m n : nat) : Qc :=
  if (negb (da n =? Z.of_nat m) && negb (da n =? -1))%Z then 0%Qc
  else
    let j := nth m fv 0%nat in
    let x := (lik j n * pd j / (1 - pd j) / clutter n)%Qc in
    if Qcltb x thr then 0%Qc else if Qcltb eps x then x else 0%Qc.

(** One partition, include/RFSCeresSLAM.hpp:1006-1166: log( Pd ) per row (line 1025), the clutter
    per column, and for a non-zero partition the best assignment and up to 200 further ones of the
    extended matrix with zeros (ones) for the missed landmarks and the outliers. *)
Definition c_block (fv : list nat) (flag : bool) (il jl : list nat) : Qc :=
  let base := fold_left Qcmult (map clutter jl) (fold_left Qcmult (map (fun r => pd (nth r fv 0%nat)) il) 1%Qc) in
  if flag then
    let E := extended (odds fv) (fun _ => 0%Qc) (fun _ => 1%Qc) il jl in
    (base * murty_sum 201 E (kbest (length il) (length jl) E))%Qc
  else base.

(** The loop over the partitions, include/RFSCeresSLAM.hpp:1004-1179; all are asked for with the
    extension (lines 1016-1021). *)
Fixpoint c_blocks (fv : list nat) (g : cgen) (ps : list nat) (l : Qc) : outcome Qc :=
  match ps with
  | [] => Val l
  | p :: r =>
    let* got := getPartition g p true in
    c_blocks fv (fst got) r (l * c_block fv (gflag (snd got)) (grows (snd got)) (gcols (snd got)))%Qc
  end.

(** exp of rfsMeasurementLogLikelihood, include/RFSCeresSLAM.hpp:868-1184. *)
Definition c_scan (cc : nat -> nat) (ncc : nat) (M nZ : nat) : outcome Qc :=
  let fv := in_fov M in
  if (length fv =? 0)%nat then Val (fold_left Qcmult (map clutter (seq 0 nZ)) 1%Qc * eint)%Qc
  else
    let* r := partition cc ncc (cg_new (sig (odds fv)) (length fv) nZ 0%Z) in
    let* l := c_blocks fv (fst r) (seq 0 (snd r)) 1%Qc in
    Val (l * eint)%Qc.
End Value.
