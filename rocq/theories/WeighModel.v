(** Model of the particle weighting of the PHD filter, RBPHDFilter::importanceWeighting
    (include/RBPHDFilter.hpp:731-822) after updateMap (PhdModel.v), as called by update
    (include/RBPHDFilter.hpp:476-498), and of the weight factor of the CB-MeMBer filter
    (include/RBCBMeMBerFilter.hpp:583-646).

    Simplifications.  Numbers are rationals.  [glik g x] is evalGaussianLikelihood of the
    landmark g at the mean of x (include/RBPHDFilter.hpp:792), [meas lm z] likelihood and squared
    Mahalanobis distance of measurement z for the expected measurement of the landmark without
    its own covariance (852-860), [srt] std::sort by weight, [comps] the connected components of
    boost, [kbest] Murty's algorithm (RfsModel.v).  [tiny] is denorm_min, [expf] exp. *)
From Coq Require Import ZArith List Bool Arith QArith Qcanon.
From Verif Require Import Base ListUtil QcLra Loop PartitionModel RfsModel PhdModel LmbModel MemberModel.
Import ListNotations.
Local Open Scope Qc_scope.

Section Weigh.
Variable T : Type.
Variable probDet : T -> Qc * bool.
Variable correct : T -> nat -> Qc * Qc * T.
Variable meas : T -> nat -> Qc * Qc.
Variable glik : T -> T -> Qc.
Variable clutter : nat -> Qc.
Variable integral : Qc.
Variables gateMD birthW tiny : Qc.
Variable expf : Qc -> Qc.
Variable kbest : nat -> nat -> (nat -> nat -> Qc) -> list (list nat).
Variable comps : (nat -> nat -> Z) -> nat -> nat -> (nat -> nat) * nat.

(** struct Gaussian, include/GaussianMixture.hpp:60-64, without the case NULL: landmark, weight
    and weight_prev. *)
Record gauss := Gs { g_lm : T; g_w : Qc; g_prev : Qc }.
Variable srt : list gauss -> list gauss.

(** The mixture after updateMap: setWeight moves the old weight of an existing Gaussian to
    weight_prev (include/RBPHDFilter.hpp:706, include/GaussianMixture.hpp:392-396), a new one has
    weight_prev 0 (include/GaussianMixture.hpp:309). *)
Fixpoint with_prev (new old : list (T * Qc)) : list gauss :=
  match new, old with
  | [], _ => []
  | (lm, w) :: n, [] => Gs lm w 0 :: with_prev n []
  | (lm, w) :: n, (_, wp) :: o => Gs lm w wp :: with_prev n o
  end.

(** nEvalPoints, include/RBPHDFilter.hpp:740: the int setting is compared as unsigned int. *)
Definition eval_count (cfg : Z) (nM : nat) : Z :=
  if (Z.of_nat nM <? cfg mod 2 ^ 32)%Z then Z.of_nat nM else cfg.

(** The loop that selects evaluation points, include/RBPHDFilter.hpp:750-764: number in the
    sorted mixture and detection probability; [thr] is importanceWeightingEvalPointGuassianWeight_. *)
Fixpoint pick (thr : Qc) (n : Z) (i : nat) (l : list gauss) (acc : list (nat * Qc)) : list (nat * Qc) :=
  match l with
  | [] => acc
  | g :: r =>
    if Qcltb (g_w g) thr then acc
    else
      let pd := fst (probDet (g_lm g)) in
      let acc' := if Qcltb 0 pd then acc ++ [(i, pd)] else acc in
      if negb (n =? -1)%Z && (n <=? Z.of_nat (length acc'))%Z then acc'
      else pick thr n (S i) r acc'
  end.

(** getGaussian for the evaluation points, include/RBPHDFilter.hpp:782-784, 850. *)
Fixpoint points (l : list gauss) (ev : list (nat * Qc)) : outcome (list (T * Qc)) :=
  match ev with
  | [] => Val []
  | (i, pd) :: r =>
    let* g := of_option OutOfBounds (nth_error l i) in
    let* ps := points l r in
    Val ((g_lm g, pd) :: ps)
  end.

(** Sums of the weights, include/RBPHDFilter.hpp:768-776. *)
Definition sum_before (l : list gauss) : Qc := fold_left (fun v g => v + g_prev g) l 0.
(** Part of the above, include/RBPHDFilter.hpp:768-776. *)
Definition sum_after (l : list gauss) : Qc := fold_left (fun v g => v + g_w g) l 0.

(** Intensities at a point, include/RBPHDFilter.hpp:786-797. *)
Definition at_before (l : list gauss) (x : T) : Qc :=
  fold_left (fun v g => v + g_prev g * glik (g_lm g) x) l tiny.
(** Part of the above, include/RBPHDFilter.hpp:786-797. *)
Definition at_after (l : list gauss) (x : T) : Qc :=
  fold_left (fun v g => v + g_w g * glik (g_lm g) x) l tiny.
(** Their products over the points, include/RBPHDFilter.hpp:779-800. *)
Definition prod_before (l : list gauss) (ps : list (T * Qc)) : Qc :=
  fold_left (fun v p => v * at_before l (fst p)) ps 1.
(** Part of the above, include/RBPHDFilter.hpp:779-800. *)
Definition prod_after (l : list gauss) (ps : list (T * Qc)) : Qc :=
  fold_left (fun v p => v * at_after l (fst p)) ps 1.

(** The likelihood table, include/RBPHDFilter.hpp:848-867; [gate2] is the squared threshold. *)
Definition point_table (gate2 : Qc) (ps : list (T * Qc)) (m z : nat) : Qc :=
  match nth_error ps m with
  | None => 0
  | Some (lm, pd) => if Qcltb gate2 (snd (meas lm z)) then 0 else fst (meas lm z) * pd
  end.
(** Part of the above, include/RBPHDFilter.hpp:848-867. *)
Definition point_pd (ps : list (T * Qc)) (m : nat) : Qc :=
  match nth_error ps m with None => 0 | Some (_, pd) => pd end.

(** Settings, include/RBPHDFilter.hpp:86-118. *)
Record settings := Settings { c_points : Z; c_weight : Qc; c_gate2 : Qc; c_cluster : bool }.

(** importanceWeighting, include/RBPHDFilter.hpp:731-822; nZ measurements, [weight] the weight of
    the particle.  sortByWeight does sort: setWeight has just cleared its flag (C55).  An
    intensity product of zero is a division by zero (812). *)
Definition importance (c : settings) (nZ : nat) (l : list gauss) (weight : Qc) : outcome (list gauss * Qc) :=
  let n := eval_count (c_points c) (length l) in
  if (n =? 0)%Z then Val (l, tiny)
  else
    let s := srt l in
    let* ps := points s (pick (c_weight c) n 0 s []) in
    let L := point_table (c_gate2 c) ps in
    let cc := comps (sig L) (length ps) nZ in
    let* lik := rfs_likelihood L (point_pd ps) clutter 8 kbest (fst cc) (snd cc) integral (length ps) nZ in
    if Qc_eq_dec (prod_after s ps) 0 then UB DivByZero
    else Val (s, lik * prod_before s ps / prod_after s ps * expf (sum_after s - sum_before s) * weight).

(** Map update and weighting of one particle, include/RBPHDFilter.hpp:476-498, for at least one
    measurement (452-453): the new map and the new weight of the particle. *)
Definition weigh (c : settings) (t0 : tables T) (nZ : nat) (mix : list (T * Qc)) (weight : Qc)
  : outcome (list (T * Qc) * Qc) :=
  let* r := updateMap T probDet correct clutter gateMD birthW tiny expf (c_cluster c) t0 mix nZ in
  if c_cluster c then Val (rmix T r, rweight T r * weight)
  else
    let* s := importance c nZ (with_prev (rmix T r) mix) weight in
    Val (map (fun g => (g_lm g, g_w g)) (fst s), snd s).
End Weigh.
Arguments Gs {T} _ _ _.
Arguments g_lm {T} _.
Arguments g_w {T} _.
Arguments g_prev {T} _.

Section MemberWeight.
Context {G : Type}.
Variable probDet : G -> Qc.
Variable correct : nat -> G -> option (G * Qc).
Variable clutter : nat -> Qc.
Variables integral thr : Qc.
Variable kbest : nat -> nat -> (nat -> nat -> Qc) -> list (list nat).
Variable comps : (nat -> nat -> Z) -> nat -> nat -> (nat -> nat) * nat.

(** The table L of updateMap, include/RBCBMeMBerFilter.hpp:583-586, 595-617; [thr] is
    importanceWeightingMeasurementLikelihoodThreshold_. *)
Definition rho (s : @seen_track G) (z : nat) : Qc := fst (fold_left (one_gauss correct s z) (s_g s) (0, [])).
(** Part of the above, include/RBCBMeMBerFilter.hpp:583-586, 595-617. *)
Definition seen_table (vs : list (@seen_track G)) (m z : nat) : Qc :=
  match nth_error vs m with
  | None => 0
  | Some s => if Qcltb thr (rho s z) then rho s z else 0
  end.
(** Part of the above, include/RBCBMeMBerFilter.hpp:583-586, 595-617. *)
Definition seen_pd (vs : list (@seen_track G)) (m : nat) : Qc :=
  match nth_error vs m with None => 0 | Some s => s_pd s end.

(** Weight of the particle after updateMap, include/RBCBMeMBerFilter.hpp:528-534 and 642-646: an
    empty map returns before the weight is touched.  rfsMeasurementLikelihood (653-800) is the
    function of RfsModel.v. *)
Definition member_weight (nZ : nat) (ts : list (track G)) (weight : Qc) : outcome Qc :=
  match ts with
  | [] => Val weight
  | _ =>
    let* q := legacies probDet ts in
    let vs := snd q in
    let L := seen_table vs in
    let cc := comps (sig L) (length vs) nZ in
    let* l := rfs_likelihood L (seen_pd vs) clutter 8 kbest (fst cc) (snd cc) integral (length vs) nZ in
    Val (l * weight)
  end.
End MemberWeight.
