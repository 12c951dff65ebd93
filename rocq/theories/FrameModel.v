(** Model of src/Frame.cpp (frames of reference in the plane) and src/GaussianGenerators.cpp with the
    parts of include/RandomVec.hpp that draw from the generators.

    Over the reals, so rounding is outside the model.  Pointers to covariances are options; reading
    through a null pointer is UB NullDeref. *)
From Coq Require Import Reals List Bool ZArith.
From Verif Require Import Base TimeStampModel SensorModel.
Import ListNotations.
Local Open Scope R_scope.

(** Frame2d, include/Frame.hpp: a Pose<3,2,1> (mean, covariance, time) and the pointer to the base
    frame, by number. *)
Record frame := Frame { f_pose : pose2; f_cov : mx; f_time : timestamp; f_base : option nat }.

(** getRotMat, lines 49-54. *)
Definition rot (a : R) : mx := mx_of [[cos a; - sin a]; [sin a; cos a]].

(** Lines 63, 78 and 30: R * p + t. *)
Definition place (f : frame) (v : R * R) : R * R :=
  let a := p_t (f_pose f) in
  (cos a * fst v + - sin a * snd v + p_x (f_pose f), sin a * fst v + cos a * snd v + p_y (f_pose f)).

(** operator*, lines 17-41; the constructor of line 39 leaves the covariance at zero. *)
Definition compose (b_c c_d : frame) : frame :=
  let r := mmul 2 (rot (p_t (f_pose b_c))) (rot (p_t (f_pose c_d))) in
  let t := place b_c (p_x (f_pose c_d), p_y (f_pose c_d)) in
  Frame (P2 (fst t) (snd t) (atan2 (r 1%nat 0%nat) (r 0%nat 0%nat)))
        (fun _ _ => 0)
        (if ts_ltb (f_time b_c) (f_time c_d) then f_time c_d else f_time b_c)
        (f_base b_c).

(** getRelToBaseFrame in place, lines 56-68. *)
Definition rel_in_place (f : frame) (v : R * R) (cov : option mx) : (R * R) * option mx :=
  (place f v, option_map (sandwich 2 (rot (p_t (f_pose f)))) cov).

(** getRelToBaseFrame with source and target, lines 70-83; line 80 tests the target twice. *)
Definition rel_to (f : frame) (v : R * R) (cov_c cov_b : option mx) : outcome ((R * R) * option mx) :=
  match cov_b with
  | None => Val (place f v, None)
  | Some _ =>
      match cov_c with
      | None => UB NullDeref
      | Some m => Val (place f v, Some (sandwich 2 (rot (p_t (f_pose f))) m))
      end
  end.

(** A RandomVec<2>: mean, covariance, time; include/RandomVec.hpp:655-660. *)
Record rv2 := RV { v_x : R * R; v_S : mx; v_t : timestamp }.

(** getRelToBaseFrame of random vectors, lines 85-94 (in place, the time stays) and 96-108. *)
Definition rel_rv_in_place (f : frame) (v : rv2) : rv2 :=
  let r := rel_in_place f (v_x v) (Some (v_S v)) in
  RV (fst r) (match snd r with Some m => m | None => v_S v end) (v_t v).
(** Part of the above, src/Frame.cpp:85-94. *)
Definition rel_rv (f : frame) (c b : rv2) : outcome rv2 :=
  let* r := rel_to f (v_x c) (Some (v_S c)) (Some (v_S b)) in
  Val (RV (fst r) (match snd r with Some m => m | None => v_S b end) (v_t c)).

(** ** Generators *)
Section Generators.

(** States of boost::mt19937 and boost::normal_distribution, seeding, the state of a new distribution,
    and a draw. *)
Variables (E D X : Type) (seed : Z -> E) (fresh : D) (draw : D -> E -> X * D * E).

(** randomGenerators_ and gaussianGenerators_, src/GaussianGenerators.cpp:38-40. *)
Record gens := Gens { g_rand : list E; g_gauss : list D }.

(** Before main; src/GaussianGenerators.cpp:38-40. *)
Definition no_gens : gens := Gens [] [].

(** initializeGaussianGenerators, lines 42-56: n is the number of threads, s the stream of lrand48 from
    its present position on.  Only the distributions are cleared. *)
Definition initialize (n : nat) (s : nat -> Z) (g : gens) : gens :=
  Gens (g_rand g ++ map (fun i => seed (s i)) (seq 0 n)) (repeat fresh n).

(** One draw of thread t, include/RandomVec.hpp:607 and 640. *)
Definition draw1 (t : nat) (g : gens) : outcome (X * gens) :=
  let* d := of_option OutOfBounds (nth_error (g_gauss g) t) in
  let* e := of_option OutOfBounds (nth_error (g_rand g) t) in
  let r := draw d e in
  Val (fst (fst r), Gens (firstn t (g_rand g) ++ snd r :: skipn (S t) (g_rand g))
                         (firstn t (g_gauss g) ++ snd (fst r) :: skipn (S t) (g_gauss g))).

(** A sequence of draws by the threads given: the loop of lines 606-608, of several threads. *)
Fixpoint draws (ts : list nat) (g : gens) : outcome (list X * gens) :=
  match ts with
  | [] => Val ([], g)
  | t :: ts' => let* r := draw1 t g in
                let* q := draws ts' (snd r) in
                Val (fst r :: fst q, snd q)
  end.
End Generators.
Arguments Gens {E D}. Arguments g_rand {E D}. Arguments g_gauss {E D}. Arguments no_gens {E D}.
Arguments initialize {E D}. Arguments draw1 {E D X}. Arguments draws {E D X}.
