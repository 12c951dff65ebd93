(** Model of the particle swarm optimiser RFSPSOSLAM (include/RFSPSOSLAM.hpp).

    Simplifications.  A log-likelihood is minus infinity or an integer (multiples of some unit);
    NaN is not modelled.  Trajectory and inputs of a particle are one value of type [Tr]; the two
    are always copied together (701-702).  A landmark is a value of type [A], and so is a
    velocity; distances are integers as in OspaModel.  rfsMeasurementLikelihood( i ) is a function
    [eval] of trajectory and landmarks (C18).  Every test of the form drand48() < c is an arbitrary
    boolean, one for each place and index; velocity updates are arbitrary functions of the values
    they read.  evaluateLikelihoods is an OpenMP loop: executions are interleavings of whole
    statements and of the critical section (in C++ the read of currentLikelihood of another
    particle in the critical section, line 709, may race with its write in line 695). *)
From Coq Require Import ZArith List Bool Arith.
From Verif Require Import Base ListUtil Loop OspaModel.
Import ListNotations.
Local Open Scope nat_scope.

(** A value of currentLikelihood or bestLikelihood, include/RFSPSOParticle.hpp:62-63. *)
Inductive lik := NegInf | Fin (z : Z).
(** a > b for such values; include/RFSPSOSLAM.hpp:377, 698, 708 and 714. *)
Definition lgt (a b : lik) : bool :=
  match a, b with
  | Fin x, Fin y => (y <? x)%Z
  | Fin _, NegInf => true
  | NegInf, _ => false
  end.

(** updateTopology, include/RFSPSOSLAM.hpp:323-362.  [rnd i j] is the value of rand_k in line 348
    for particle i and the j-th draw; an index outside topology_ is out of bounds. *)
Section Topology.
Variable rnd : nat -> nat -> nat.

(** Lines 348-350. *)
Definition inform (i j : nat) (t : list (list nat)) : outcome (list (list nat)) :=
  let* l := of_option OutOfBounds (nth_error t (rnd i j)) in
  if last l i =? i then
    match l with
    | [] => UB OutOfBounds       (* back() of an empty vector *)
    | _ => Val t
    end
  else Val (upd t (rnd i j) (l ++ [i])).

(** The whole function: n is config.nParticles_, K is config.K, include/RFSPSOSLAM.hpp:323-353. *)
Definition updateTopology (use_global : bool) (n K : nat) (t : list (list nat)) : outcome (list (list nat)) :=
  if use_global then
    if length t =? n then Val t else Val (map (fun _ => seq 0 n) (seq 0 n))
  else for_ n (fun i => for_ K (inform i)) (map (fun i => [i]) (seq 0 n)).
End Topology.

Section Pso.
Context {A Tr : Type}.
Variable d : A -> A -> Z.          (* euclidianDist *)
Variable c : Z.                    (* config.ospa_c_ *)
Variable eval : Tr -> list A -> lik.
Variable plus : A -> A -> A.

(** A particle, include/RFSPSOParticle.hpp:52-63: trajectory, landmarks, landmarks_velocity, the
    recorded best of the three, currentLikelihood and bestLikelihood. *)
Record part := PT { traj : Tr; lms : list A; vel : list A; btraj : Tr; blms : list A; bvel : list A; cur : lik; best : lik }.

(** ** evaluateLikelihoods *)
(** Next statement of the current iteration: line 695, lines 698-705, lines 706-712 of
    include/RFSPSOSLAM.hpp. *)
Inductive phase := Eval | Keep | Crit.
(** A thread of the loop in line 693 of include/RFSPSOSLAM.hpp: the iterations it has not finished
    and its place in the first one. *)
Record thread := TH { todo : list nat; ph : phase }.
(** Particles, besti (include/RFSPSOSLAM.hpp:692) and threads. *)
Record econf := EC { eparts : list part; besti : nat; eths : list thread }.

(** Line 695 of include/RFSPSOSLAM.hpp. *)
Definition set_cur (p : part) : part :=
  PT (traj p) (lms p) (vel p) (btraj p) (blms p) (bvel p) (eval (traj p) (lms p)) (best p).
(** Lines 698-705 of include/RFSPSOSLAM.hpp. *)
Definition keep_best (p : part) : part :=
  if lgt (cur p) (best p)
  then PT (traj p) (lms p) (vel p) (traj p) (lms p) (vel p) (cur p) (cur p) else p.

(** One step of thread t, include/RFSPSOSLAM.hpp:694-713.  None: the thread does not exist or has
    finished, or an index is out of range. *)
Definition estep (t : nat) (k : econf) : option econf :=
  match nth_error (eths k) t with
  | Some (TH (i :: r) Eval) =>
    match nth_error (eparts k) i with
    | Some p => Some (EC (upd (eparts k) i (set_cur p)) (besti k) (upd (eths k) t (TH (i :: r) Keep)))
    | None => None
    end
  | Some (TH (i :: r) Keep) =>
    match nth_error (eparts k) i with
    | Some p => Some (EC (upd (eparts k) i (keep_best p)) (besti k) (upd (eths k) t (TH (i :: r) Crit)))
    | None => None
    end
  | Some (TH (i :: r) Crit) =>
    match nth_error (eparts k) i, nth_error (eparts k) (besti k) with
    | Some p, Some b => Some (EC (eparts k) (if lgt (cur p) (cur b) then i else besti k) (upd (eths k) t (TH r Eval)))
    | _, _ => None
    end
  | _ => None
  end.

(** A schedule: which thread takes the next step (include/RFSPSOSLAM.hpp:693-713). *)
Fixpoint erun (sched : list nat) (k : econf) : option econf :=
  match sched with
  | [] => Some k
  | t :: r => match estep t k with Some k' => erun r k' | None => None end
  end.
(** No thread has an iteration left; the end of the parallel loop, include/RFSPSOSLAM.hpp:693-711. *)
Definition finished (k : econf) : bool := forallb (fun t => match todo t with [] => true | _ => false end) (eths k).

(** The optimiser: particles_, bestParticle_, hasImproved_, topology_ (include/RFSPSOSLAM.hpp:219-228). *)
Record pso := PS { parts : list part; gbest : part; improved : bool; topo : list (list nat) }.

(** evaluateLikelihoods, include/RFSPSOSLAM.hpp:691-720; the iterations are handed out to the
    threads as [chunks].  A schedule that stops early or is impossible is OutOfFuel. *)
Definition evaluate (chunks : list (list nat)) (sched : list nat) (s : pso) : outcome pso :=
  match erun sched (EC (parts s) 0 (map (fun l => TH l Eval) chunks)) with
  | None => OutOfFuel
  | Some k =>
    if finished k then
      let* b := of_option OutOfBounds (nth_error (eparts k) (besti k)) in
      if lgt (cur b) (cur (gbest s)) then Val (PS (eparts k) b true (topo s))
      else Val (PS (eparts k) (gbest s) false (topo s))
    else OutOfFuel
  end.

(** ** moveParticles *)
(** The random decisions for one particle: tests in lines 549 (phi_p), 553, 563 (phi_g), 592 and
    600, and the new velocities (543-575) as functions of old velocity, landmark, and the landmarks
    of the two best maps it is associated with, include/RFSPSOSLAM.hpp. *)
Record draw := DR { rp : nat -> bool; r5 : nat -> bool; rg : nat -> bool; ap : nat -> bool; ag : nat -> bool;
                    accel : nat -> A -> A -> option A -> option A -> A }.

(** velocities, todelete, toadd_particle, toadd_global, include/RFSPSOSLAM.hpp:520-522. *)
Record vst := VS { vv : list A; del : list bool; addp : list bool; addg : list bool }.

(** The landmark of a best map that landmark x with assigned column j belongs to, if any:
    the conditions in lines 548 and 562 of include/RFSPSOSLAM.hpp. *)
Definition partner (bl : list A) (j : nat) (x : A) : option A :=
  match nth_error bl j with
  | None => None
  | Some b => if (c <=? d b x)%Z then None else Some b
  end.

(** Body of the loop over the landmarks, include/RFSPSOSLAM.hpp:542-579. *)
Definition vel_step (o : draw) (sp sg : list nat) (l bp bg : list A) (i : nat) (s : vst) : outcome vst :=
  let* v := of_option OutOfBounds (nth_error (vv s) i) in
  let* x := of_option OutOfBounds (nth_error l i) in
  let* jp := of_option OutOfBounds (nth_error sp i) in
  let mp := partner bp jp x in
  let s1 :=
    match mp with
    | None => VS (vv s) (if rp o i then upd (del s) i true else del s) (addp s) (addg s)
    | Some _ => VS (vv s) (if r5 o i then upd (del s) i true else del s) (upd (addp s) jp false) (addg s)
    end in
  let* jg := of_option OutOfBounds (nth_error sg i) in
  let mg := partner bg jg x in
  let s2 :=
    match mg with
    | None => VS (vv s1) (if rg o i then upd (del s1) i true else del s1) (addp s1) (addg s1)
    | Some _ => VS (vv s1) (del s1) (addp s1) (upd (addg s1) jg false)
    end in
  Val (VS (upd (vv s2) i (accel o i v x mp mg)) (del s2) (addp s2) (addg s2)).

(** Overwrite an element with the last one and drop that; include/RFSPSOSLAM.hpp:581-588. *)
Definition drop_swap {B : Type} (l : list B) (i : nat) : outcome (list B) :=
  let* z := of_option OutOfBounds (nth_error l (length l - 1)) in
  if i <? length l then Val (removelast (upd l i z)) else UB OutOfBounds.
(** The deletion loop, include/RFSPSOSLAM.hpp:584-591; k counts down from nM1 - 1. *)
Definition del_step (n : nat) (dl : list bool) (k : nat) (s : list A * list A) : outcome (list A * list A) :=
  let i := n - 1 - k in
  if nth i dl false then
    let* l := drop_swap (fst s) i in
    let* v := drop_swap (snd s) i in
    Val (l, v)
  else Val s.
(** The loops that add landmarks, include/RFSPSOSLAM.hpp:592-607. *)
Definition add_step (r : nat -> bool) (bl bv : list A) (ad : list bool) (i : nat) (s : list A * list A) : outcome (list A * list A) :=
  if nth i ad false then
    if r i then
      let* l := of_option OutOfBounds (nth_error bl i) in
      let* v := of_option OutOfBounds (nth_error bv i) in
      Val (fst s ++ [l], snd s ++ [v])
    else Val s
  else Val s.

(** updateLandmarkVelocity, include/RFSPSOSLAM.hpp:504-611: new landmarks and velocities of particle
    p, with g the best particle of its neighbourhood. *)
Definition updateLandmarkVelocity (o : draw) (p g : part) : outcome (list A * list A) :=
  let n1 := length (lms p) in
  let* op := construct d c (lms p) (blms p) in
  let* og := construct d c (lms p) (blms g) in
  let* s := for_ n1 (vel_step o (osoln op) (osoln og) (lms p) (blms p) (blms g))
              (VS (vel p) (repeat false n1) (repeat true (length (blms p))) (repeat true (length (blms g)))) in
  let* s1 := for_ n1 (del_step n1 (del s)) (lms p, vv s) in
  let* s2 := for_ (length (blms p)) (add_step (ap o) (blms p) (bvel p) (addp s)) s1 in
  for_ (length (blms g)) (add_step (ag o) (blms g) (bvel g) (addg s)) s2.

(** Best particle of the neighbourhood, include/RFSPSOSLAM.hpp:373-381. *)
Definition neighbour_step (ps : list part) (n : nat) (s : nat * lik) : outcome (nat * lik) :=
  let* p := of_option OutOfBounds (nth_error ps n) in
  if lgt (cur p) (snd s) then Val (n, cur p) else Val s.
(** The loop over the neighbours, include/RFSPSOSLAM.hpp:376-381. *)
Definition neighbour (ps : list part) (i : nat) (tp : list nat) : outcome nat :=
  let* p := of_option OutOfBounds (nth_error ps i) in
  let* r := fold_left (fun s n => let* s' := s in neighbour_step ps n s') tp (Val (i, best p)) in
  Val (fst r).

(** Body of moveParticles, include/RFSPSOSLAM.hpp:371-428.  [steer] is the new trajectory as a
    function of the present one, the recorded best and that of the neighbour (405-420).  The sum in
    lines 424-428 reads a velocity for every landmark. *)
Definition move_one (steer : nat -> Tr -> Tr -> option Tr -> Tr) (o : nat -> draw) (i : nat) (s : pso) : outcome pso :=
  let* tp := of_option OutOfBounds (nth_error (topo s) i) in
  let* bi := neighbour (parts s) i tp in
  let* p := of_option OutOfBounds (nth_error (parts s) i) in
  let* g := of_option OutOfBounds (nth_error (parts s) bi) in
  let tr := steer i (traj p) (btraj p) (if bi =? i then None else Some (btraj g)) in
  let* lv := updateLandmarkVelocity (o i) p g in
  if length (fst lv) <=? length (snd lv) then
    let l' := map (fun q => plus (fst q) (snd q)) (combine (fst lv) (snd lv)) in
    Val (PS (upd (parts s) i (PT tr l' (snd lv) (btraj p) (blms p) (bvel p) (cur p) (best p))) (gbest s) (improved s) (topo s))
  else UB OutOfBounds.

(** moveParticles, include/RFSPSOSLAM.hpp:365-430. *)
Definition moveParticles (rnd : nat -> nat -> nat) (use_global : bool) (K : nat)
    (steer : nat -> Tr -> Tr -> option Tr -> Tr) (o : nat -> draw) (s : pso) : outcome pso :=
  let n := length (parts s) in
  let* t := if improved s then Val (topo s) else updateTopology rnd use_global n K (topo s) in
  for_ n (move_one steer o) (PS (parts s) (gbest s) (improved s) t).

(** init of a new optimiser, include/RFSPSOSLAM.hpp:631-687: [start] gives the sampled trajectory and
    the landmarks from measurements of every particle; resize of an empty vector gives [zero]s. *)
Definition init (zero : A) (tr0 : Tr) (rnd : nat -> nat -> nat) (use_global : bool) (K : nat) (start : list (Tr * list A)) : outcome pso :=
  let* t := updateTopology rnd use_global (length start) K [] in
  Val (PS (map (fun x => PT (fst x) (snd x) (repeat zero (length (snd x))) (fst x) (snd x) (repeat zero (length (snd x))) NegInf NegInf) start)
          (PT tr0 [] [] tr0 [] [] NegInf NegInf) false t).
End Pso.

(** ** Times of inputs and measurements *)
Section Times.
Context {I M : Type}.
Variable itime : I -> Z.   (* TInput::getTime *)
Variable mtime : M -> Z.   (* TMeasurement::getTime *)

(** inputs_, time_, Z_ (include/RFSPSOSLAM.hpp:221-223). *)
Record batch := BT { inputs : list I; times : list Z; zs : list (list M) }.

(** vector::resize; include/RFSPSOSLAM.hpp:647-682. *)
Definition resize {B : Type} (n : nat) (x : B) (l : list B) : list B := firstn n l ++ repeat x (n - length l).

(** addInput, include/RFSPSOSLAM.hpp:281-289; std::sort( begin, begin ) sorts nothing. *)
Definition addInput (u : I) (b : batch) : batch :=
  BT (inputs b ++ [u]) (times b ++ [itime u]) (resize (S (length (inputs b ++ [u]))) [] (zs b)).
(** setInputs, include/RFSPSOSLAM.hpp:293-304. *)
Definition setInputs (us : list I) (b : batch) : batch :=
  BT us (0%Z :: map itime us) (resize (S (length us)) [] (zs b)).

(** std::lower_bound as in libstdc++ (called in include/RFSPSOSLAM.hpp:312): first position, by
    halving the range of [len] elements from [first] on. *)
Fixpoint lower_bound (fuel : nat) (l : list Z) (first len : nat) (t : Z) : outcome nat :=
  match fuel with
  | O => OutOfFuel
  | S f =>
    if len =? 0 then Val first
    else
      let half := len / 2 in
      let* x := of_option OutOfBounds (nth_error l (first + half)) in
      if (x <? t)%Z then lower_bound f l (first + half + 1) (len - half - 1) t
      else lower_bound f l first half t
  end.

(** addMeasurement, include/RFSPSOSLAM.hpp:308-320. *)
Definition addMeasurement (z : M) (b : batch) : outcome batch :=
  let* k := lower_bound (S (length (times b))) (times b) 0 (length (times b)) (mtime z) in
  match nth_error (times b) k with
  | None => UB BadIterator                 (* *it with it == end() *)
  | Some t =>
    if (t =? mtime z)%Z then
      let* l := of_option OutOfBounds (nth_error (zs b) k) in
      Val (BT (inputs b) (times b) (upd (zs b) k (l ++ [z])))
    else UB Aborted                        (* std::exit( 1 ) *)
  end.

(** Time of trajectory[k] after initTrajectories, include/RFSPSOSLAM.hpp:646-655: the first pose has
    time 0, pose k + 1 is stepped to the time of inputs_[k]. *)
Definition pose_time (b : batch) (k : nat) : option Z :=
  match k with O => Some 0%Z | S k' => option_map itime (nth_error (inputs b) k') end.

(** rfsMeasurementLikelihood( i ), include/RFSPSOSLAM.hpp:724-735, as far as vectors are read: for
    every pose of the trajectory its index, the measurements Z_[k] it is compared with, and the time
    difference used for the motion (none for k = 0). *)
Definition compared (b : batch) : outcome (list (nat * list M * option Z)) :=
  let* l :=
    for_ (S (length (inputs b))) (fun k acc =>
      let* z := of_option OutOfBounds (nth_error (zs b) k) in
      match k with
      | O => Val (acc ++ [(k, z, None)])
      | S k' =>
        let* t1 := of_option OutOfBounds (nth_error (times b) k) in
        let* t0 := of_option OutOfBounds (nth_error (times b) k') in
        Val (acc ++ [(k, z, Some (t1 - t0)%Z)])
      end) [] in
  Val l.
End Times.
