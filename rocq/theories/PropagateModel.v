(** Model of ParticleFilter::propagate, include/ParticleFilter.hpp:329-349: an
    OpenMP parallel loop whose iterations share the variables x_km and x_k
    (declared before the loop in line 336).

    Simplifications: executions are interleavings of whole statements (in C++
    the unsynchronised accesses are a data race, so more than that can happen);
    the creation of p_km (339-343) is one step with the following read of the
    particle, both touching only slot i; ProcessModel::sample is a function of
    x_km (noise off). *)
From Coq Require Import List Arith.
From Verif Require Import Base ListUtil.
Import ListNotations.

Section Propagate.
Variable Pose : Type.
(** pProcessModel_->sample( x_k, x_km, input, ...), include/ParticleFilter.hpp:345. *)
Variable f : Pose -> Pose.
(** maintainTrajectory, include/ParticleFilter.hpp:334. *)
Variable maintain : bool.

(** Next statement of the current iteration, include/ParticleFilter.hpp:344-346. *)
Inductive phase := Read | Sample | Write.

(** One OpenMP thread: the iterations assigned to it that are not finished
    (include/ParticleFilter.hpp:337-338) and its place in the first one. *)
Record thread := TH { todo : list nat; ph : phase }.

(** The shared variables of include/ParticleFilter.hpp:336, pose and trajectory
    (latest first) of every particle, and the threads. *)
Record config := CF { xkm : Pose; xk : Pose; parts : list (Pose * list Pose); ths : list thread }.

(** One statement of thread t, include/ParticleFilter.hpp:339-346.  None: thread
    t does not exist or has finished. *)
Definition step (t : nat) (c : config) : option config :=
  match nth_error (ths c) t with
  | Some (TH (i :: r) Read) =>
    match nth_error (parts c) i with
    | Some (x, h) =>
      Some (CF x (xk c) (if maintain then upd (parts c) i (x, x :: h) else parts c)
               (upd (ths c) t (TH (i :: r) Sample)))
    | None => None
    end
  | Some (TH (i :: r) Sample) => Some (CF (xkm c) (f (xkm c)) (parts c) (upd (ths c) t (TH (i :: r) Write)))
  | Some (TH (i :: r) Write) =>
    match nth_error (parts c) i with
    | Some (x, h) => Some (CF (xkm c) (xk c) (upd (parts c) i (xk c, h)) (upd (ths c) t (TH r Read)))
    | None => None
    end
  | _ => None
  end.

(** A schedule of the parallel loop, include/ParticleFilter.hpp:337-347: which
    thread executes the next statement. *)
Fixpoint run (sched : list nat) (c : config) : option config :=
  match sched with
  | [] => Some c
  | t :: r => match step t c with Some c' => run r c' | None => None end
  end.

(** State on entry of the loop, include/ParticleFilter.hpp:336-338; [chunks] are
    the iterations given to each thread. *)
Definition start (d : Pose) (ps : list (Pose * list Pose)) (chunks : list (list nat)) : config :=
  CF d d ps (map (fun l => TH l Read) chunks).

(** All iterations are finished (the barrier at the end of the loop,
    include/ParticleFilter.hpp:347). *)
Definition finished (c : config) : Prop := forall t, In t (ths c) -> todo t = [].
End Propagate.
Arguments CF {Pose}. Arguments xkm {Pose}. Arguments xk {Pose}.
Arguments parts {Pose}. Arguments ths {Pose}. Arguments step {Pose}. Arguments run {Pose}.
Arguments start {Pose}. Arguments finished {Pose}.
