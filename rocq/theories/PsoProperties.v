(** Properties C45-C47 and C68-C71 of the particle swarm optimiser (RFSPSOSLAM). *)
From Coq Require Import ZArith List Bool Arith Lia Permutation Sorted.
From Verif Require Import Base ListUtil AssignSpec OspaModel PsoModel PsoSpec PsoProofs PsoProofs2 PsoProofs3 PsoProofs4 PsoProofs5 PsoProofs6.
Import ListNotations.
Local Open Scope nat_scope.

(** ** A small world
    Landmarks are integers, the trajectory is one integer and is also the log-likelihood. *)
Module World.
Definition dist (x y : Z) : Z := Z.abs (x - y).
Definition ev (t : Z) (l : list Z) : lik := Fin t.
Definition still : draw (A := Z) := DR (fun _ => false) (fun _ => false) (fun _ => false) (fun _ => false) (fun _ => false) (fun _ v _ _ _ => v).
(** Drop every landmark; add every landmark of the best maps. *)
Definition drop : draw (A := Z) := DR (fun _ => true) (fun _ => true) (fun _ => true) (fun _ => false) (fun _ => false) (fun _ v _ _ _ => v).
Definition grow : draw (A := Z) := DR (fun _ => false) (fun _ => false) (fun _ => false) (fun _ => true) (fun _ => true) (fun _ v _ _ _ => v).
Definition rr (i j : nat) : nat := 0.
(** Trajectories after a move. *)
Definition to (l : list Z) : nat -> Z -> Z -> option Z -> Z := fun i _ _ _ => nth i l 0%Z.
Definition start : outcome (pso (A := Z) (Tr := Z)) := init 0%Z 0%Z rr true 1 [(3%Z, [5%Z]); (7%Z, [])].
(** Two threads with one iteration each: one after the other, and in the opposite order. *)
Definition ch : list (list nat) := [[0]; [1]].
Definition seq01 : list nat := [0; 0; 0; 1; 1; 1].
Definition seq10 : list nat := [1; 1; 1; 0; 0; 0].
(** Evaluate, move to lower values, evaluate in the other order, where iteration 1 is compared with a
    likelihood of the previous round. *)
Definition run2 : outcome (pso (A := Z) (Tr := Z)) :=
  let* s := start in
  let* s := evaluate ev ch seq01 s in
  let* s := moveParticles dist 10 Z.add rr true 1 (to [1%Z; 2%Z]) (fun _ => still) s in
  evaluate ev ch seq10 s.
Definition get (r : outcome (pso (A := Z) (Tr := Z))) : pso := match r with Val s => s | _ => PS [] (PT 0%Z [] [] 0%Z [] [] NegInf NegInf) false [] end.
Definition st0 := get start.
Definition st1 := get (evaluate ev ch seq01 st0).
Definition st2 := get (moveParticles dist 10 Z.add rr true 1 (to [1%Z; 2%Z]) (fun _ => still) st1).
Definition st3 := get (evaluate ev ch seq10 st2).
End World.
Import World.

(** ** C45: best likelihoods *)
Theorem C45_best : forall (A Tr : Type) (d : A -> A -> Z) c eval plus zero (tr0 : Tr) rnd g K start s0 s h,
  init zero tr0 rnd g K start = Val s0 -> (forall i j, rnd i j < length start) -> reach d c eval plus s0 s h ->
  (forall i p, nth_error (parts s) i = Some p -> greatest (column i h) (best p) /\ (best p <> NegInf -> eval (btraj p) (blms p) = best p) /\
     length (vel p) = length (lms p) /\ length (bvel p) = length (blms p)) /\
  greatest (concat h) (cur (gbest s)) /\ (cur (gbest s) <> NegInf -> eval (traj (gbest s)) (lms (gbest s)) = cur (gbest s)).
Proof. exact @best_all. Qed.
Print Assumptions C45_best.

(** Every further step of such an execution succeeds: moveParticles always, evaluateLikelihoods under
    every schedule that is carried through. *)
Theorem C45_no_ub : forall (A Tr : Type) (d : A -> A -> Z) c eval plus zero (tr0 : Tr) rnd g K start s0 s h,
  init zero tr0 rnd g K start = Val s0 -> (forall i j, rnd i j < length start) -> start <> [] -> reach d c eval plus s0 s h ->
  (forall rnd' g' K' steer o, (forall i j, rnd' i j < length start) -> exists s', moveParticles d c plus rnd' g' K' steer o s = Val s') /\
  (forall ch sched e, Permutation (concat ch) (seq 0 (length start)) -> evaluate eval ch sched s <> UB e).
Proof. exact @runs_on. Qed.
Print Assumptions C45_no_ub.

(** The second evaluation misses its own greatest value 2 (besti stays 0 with value 1), but the best
    particle still holds the greatest value of all, 7. *)
Example C45_run2 : exists s, run2 = Val s /\ map cur (parts s) = [Fin 1; Fin 2] /\ map best (parts s) = [Fin 3; Fin 7] /\ cur (gbest s) = Fin 7 /\ traj (gbest s) = 7%Z.
Proof. eexists. vm_compute. repeat split; reflexivity. Qed.
Example C45_ex : start = Val st0 /\ run2 = Val st3 /\ reach dist 10 ev Z.add st0 st3 [[Fin 1; Fin 2]; [Fin 3; Fin 7]].
Proof.
  split; [vm_compute; reflexivity|]. split; [vm_compute; reflexivity|].
  assert (R1 : reach dist 10 ev Z.add st0 st1 [[Fin 3; Fin 7]]).
  { apply (reach_eval dist 10 ev Z.add st0 st0 [] ch seq01 st1); [apply reach_start | reflexivity | vm_compute; reflexivity]. }
  assert (R2 : reach dist 10 ev Z.add st0 st2 [[Fin 3; Fin 7]]).
  { apply (reach_move dist 10 ev Z.add st0 st1 _ rr true 1 (to [1%Z; 2%Z]) (fun _ => still) st2 R1); [vm_compute; intros; lia | vm_compute; reflexivity]. }
  apply (reach_eval dist 10 ev Z.add st0 st2 _ ch seq10 st3 R2); [reflexivity | vm_compute; reflexivity].
Qed.

(** ** C46: topology *)
(** In random mode: the neighbours of r are r itself and exactly the particles that drew r, in
    increasing order; the only index that can occur twice is r, and it does if and only if it drew
    itself and a particle before it drew r. *)
Theorem C46_random_partial : forall rnd n K t0, (forall i j, rnd i j < n) ->
  exists t, updateTopology rnd false n K t0 = Val t /\ length t = n /\
    forall r l, nth_error t r = Some l -> exists tl, l = r :: tl /\ StronglySorted lt tl /\
      forall x, In x tl <-> (x < n /\ exists j, j < K /\ rnd x j = r) /\ (x <> r \/ exists y, y < r /\ y < n /\ exists j, j < K /\ rnd y j = r).
Proof. exact @random_exact. Qed.
Print Assumptions C46_random_partial.

(** In either mode and after any number of calls with the same number of particles: every
    neighbourhood contains the particle and only valid indices. *)
Theorem C46_valid_partial : forall rnd g n K t0, (forall i j, rnd i j < n) -> (t0 = [] \/ topology_ok n t0) ->
  exists t, updateTopology rnd g n K t0 = Val t /\ topology_ok n t.
Proof. exact @topology_valid. Qed.
Print Assumptions C46_valid_partial.

(** A move keeps the neighbourhoods exactly if the last evaluation found a greater value than all evaluations before, and
    draws them anew otherwise, also before the first evaluation. *)
Theorem C46_redraw_partial : forall (A Tr : Type) (d : A -> A -> Z) c eval plus zero (tr0 : Tr) rnd g K start s0 s h,
  init zero tr0 rnd g K start = Val s0 -> (forall i j, rnd i j < length start) -> reach d c eval plus s0 s h ->
  forall rnd' g' K' steer o s', moveParticles d c plus rnd' g' K' steer o s = Val s' ->
  forall v v', greatest (concat h) v -> greatest (concat (tl h)) v' ->
  (~ lle v v' -> topo s' = topo s) /\ (lle v v' -> updateTopology rnd' g' (length (parts s)) K' (topo s) = Val (topo s')).
Proof. exact @redraw_spec. Qed.
Print Assumptions C46_redraw_partial.
(** The run of C45: drawing other neighbours changes nothing after the first evaluation, but after the second. *)
Example C46_redraw_ex : greatest (concat [[Fin 3; Fin 7]]) (Fin 7) /\ greatest (concat (tl [[Fin 3; Fin 7]])) NegInf /\
  omap topo (moveParticles dist 10 Z.add (fun _ _ => 1) false 1 (to [1%Z; 2%Z]) (fun _ => still) st1) = Val [[0; 1]; [0; 1]] /\
  greatest (concat [[Fin 1; Fin 2]; [Fin 3; Fin 7]]) (Fin 7) /\
  omap topo (moveParticles dist 10 Z.add (fun _ _ => 1) false 1 (to [1%Z; 2%Z]) (fun _ => still) st3) = Val [[0]; [1; 0; 1]].
Proof.
  split; [|split; [|split; [vm_compute; reflexivity|split; [|vm_compute; reflexivity]]]].
  - split; [right; cbn; tauto|]. intros x Hx. cbn in Hx. destruct Hx as [<-|[<-|[]]]; cbn; lia.
  - split; [now left|]. intros x [].
  - split; [right; cbn; tauto|]. intros x Hx. cbn in Hx. destruct Hx as [<-|[<-|[<-|[<-|[]]]]]; cbn; lia.
Qed.

Example C46_ex : updateTopology (fun i j => nth (2 * i + j) [1; 2; 2; 1; 0; 2] 0) false 3 2 [] = Val [[0; 2]; [1; 0; 1]; [2; 0; 1; 2]].
Proof. reflexivity. Qed.

(** The neighbourhood of a particle can contain it twice. *)
Theorem C46_refuted : exists rnd n K t l, (forall i j, rnd i j < n) /\ updateTopology rnd false n K [] = Val t /\ nth_error t 1 = Some l /\ ~ NoDup l.
Proof.
  exists (fun _ _ => 1), 2, 1, [[0]; [1; 0; 1]], [1; 0; 1]. split; [lia|]. split; [vm_compute; reflexivity|]. split; [reflexivity|].
  intro H. inversion H as [|? ? H1 _]. apply H1. right. left. reflexivity.
Qed.
Print Assumptions C46_refuted.

(** ** C47: times *)
(** If the times are ascending, a measurement goes to the first step with its time; a time that is not
    there ends the program, and a time behind the last one dereferences the end of the vector. *)
Theorem C47_stored_partial : forall (I M : Type) itime mtime (b : batch (I := I) (M := M)) z, built itime mtime b -> ascending (times b) ->
  (In (mtime z) (times b) -> exists k l, first_at (times b) (mtime z) k /\ nth_error (zs b) k = Some l /\
     addMeasurement mtime z b = Val (BT (inputs b) (times b) (upd (zs b) k (l ++ [z])))) /\
  (~ In (mtime z) (times b) -> (exists t, In t (times b) /\ (mtime z < t)%Z) -> addMeasurement mtime z b = UB Aborted) /\
  ((forall t, In t (times b) -> (t < mtime z)%Z) -> addMeasurement mtime z b = UB BadIterator).
Proof. exact @measurement_stored. Qed.
Print Assumptions C47_stored_partial.

(** Whatever the order of the calls, the times are those of the inputs in the order they were given, and
    what is stored is stored at a step of its own time. *)
Theorem C47_order_partial : forall (I M : Type) itime mtime (b : batch (I := I) (M := M)), built itime mtime b ->
  (times b = map itime (inputs b) \/ times b = 0%Z :: map itime (inputs b)) /\
  forall z, (exists k l, nth_error (times b) k = Some (mtime z) /\ nth_error (zs b) k = Some l /\
               addMeasurement mtime z b = Val (BT (inputs b) (times b) (upd (zs b) k (l ++ [z])))) \/
            addMeasurement mtime z b = UB Aborted \/ addMeasurement mtime z b = UB BadIterator.
Proof. exact @times_order. Qed.
Print Assumptions C47_order_partial.

Example C47_ex : let b := setInputs (fun x : Z => x) [2%Z; 4%Z; 4%Z; 6%Z] (BT (M := Z) [] [] []) in
  omap zs (addMeasurement (fun x => x) 4%Z b) = Val [[]; []; [4%Z]; []; []] /\
  addMeasurement (fun x => x) 3%Z b = UB Aborted /\ addMeasurement (fun x => x) 7%Z b = UB BadIterator.
Proof. vm_compute. auto. Qed.

(** Inputs added out of order stay so, and a measurement with the time of one of them is rejected. *)
Theorem C47_refuted : exists (b : batch (I := Z) (M := Z)) z, b = addInput (fun x => x) 3%Z (addInput (fun x => x) 5%Z (BT [] [] [])) /\
  ~ ascending (times b) /\ In z (times b) /\ addMeasurement (fun x => x) z b = UB Aborted.
Proof. eexists. exists 3%Z. split; [reflexivity|]. split; [cbn; lia|]. split; [cbn; tauto | vm_compute; reflexivity]. Qed.
Print Assumptions C47_refuted.

(** ** C68: measurements are compared with the pose of their time *)
Theorem C68_partial : forall (I M : Type) itime mtime us (b : batch (I := I) (M := M)), filled itime mtime us b ->
  exists r, compared b = Val r /\ length r = S (length us) /\
    forall k j zl dt, nth_error r k = Some (j, zl, dt) -> j = k /\ nth_error (zs b) k = Some zl /\
      (forall z, In z zl -> pose_time itime b k = Some (mtime z)) /\
      match k with
      | 0 => dt = None
      | S k' => exists t1 t0, pose_time itime b k = Some t1 /\ pose_time itime b k' = Some t0 /\ dt = Some (t1 - t0)%Z
      end.
Proof. exact @compared_right. Qed.
Print Assumptions C68_partial.

Example C68_ex : exists b : batch (I := Z) (M := Z), filled (fun x => x) (fun x => x) [2%Z; 5%Z] b /\ compared b = Val [(0, [0%Z], None); (1, [], Some 2%Z); (2, [5%Z; 5%Z], Some 3%Z)].
Proof.
  eexists. split.
  - eapply filled_meas with (z := 5%Z); [eapply filled_meas with (z := 0%Z); [eapply filled_meas with (z := 5%Z); [apply filled_set|] |] |]; vm_compute; reflexivity.
  - vm_compute. reflexivity.
Qed.

(** After addInput the measurement of the first input is kept with the pose at time 0, and the
    evaluation reads behind the end of time_. *)
Theorem C68_refuted : exists (b b' : batch (I := Z) (M := Z)), b = addInput (fun x => x) 2%Z (addInput (fun x => x) 1%Z (BT [] [] [])) /\
  addMeasurement (fun x => x) 1%Z b = Val b' /\ nth_error (zs b') 0 = Some [1%Z] /\ pose_time (fun x => x) b' 0 = Some 0%Z /\ pose_time (fun x => x) b' 1 = Some 1%Z /\
  compared b' = UB OutOfBounds.
Proof. eexists. eexists. split; [reflexivity|]. split; [vm_compute; reflexivity|]. vm_compute. auto. Qed.
Print Assumptions C68_refuted.

(** New inputs keep the measurements of the old ones. *)
Theorem C68_stale_refuted : exists (b b' : batch (I := Z) (M := Z)), addMeasurement (fun x => x) 2%Z (setInputs (fun x => x) [1%Z; 2%Z] (BT [] [] [])) = Val b /\
  b' = setInputs (fun x => x) [2%Z; 3%Z] b /\ nth_error (zs b') 2 = Some [2%Z] /\ pose_time (fun x => x) b' 2 = Some 3%Z.
Proof. eexists. eexists. split; [vm_compute; reflexivity|]. split; [reflexivity|]. vm_compute. auto. Qed.
Print Assumptions C68_stale_refuted.

(** ** C69: attraction *)
(** The particle is attracted to itself alone if no neighbour's present likelihood exceeds its own
    record, and otherwise to a neighbour with the greatest present likelihood; if the neighbours are
    all at their records, that one has the greatest record. *)
Theorem C69_partial : forall (A Tr : Type) (ps : list (part (A := A) (Tr := Tr))) i p tp, nth_error ps i = Some p -> In i tp -> (forall x, In x tp -> x < length ps) ->
  exists b, neighbour ps i tp = Val b /\
    ((b = i /\ forall x q, In x tp -> nth_error ps x = Some q -> lle (cur q) (best p)) \/
     (In b tp /\ exists q, nth_error ps b = Some q /\ lgt (cur q) (best p) = true /\ forall x r, In x tp -> nth_error ps x = Some r -> lle (cur r) (cur q))) /\
    ((forall x q, In x tp -> nth_error ps x = Some q -> cur q = best q) ->
     exists q, nth_error ps b = Some q /\ forall x r, In x tp -> nth_error ps x = Some r -> lle (best r) (best q)).
Proof. exact @neighbour_full. Qed.
Print Assumptions C69_partial.

(** After the run above particle 0 is attracted to itself, record 3, although its neighbour has the
    record 7. *)
Theorem C69_refuted : exists s p q, run2 = Val s /\ nth_error (topo s) 0 = Some [0; 1] /\ neighbour (parts s) 0 [0; 1] = Val 0 /\
  nth_error (parts s) 0 = Some p /\ nth_error (parts s) 1 = Some q /\ best p = Fin 3 /\ best q = Fin 7.
Proof. eexists. eexists. eexists. split; [vm_compute; reflexivity|]. vm_compute. repeat split; reflexivity. Qed.
Print Assumptions C69_refuted.

(** ** C70: global mode *)
(** With use_global everybody is a neighbour of everybody, when the topology is made anew. *)
Theorem C70_partial : forall rnd n K t0, length t0 <> n ->
  exists t, updateTopology rnd true n K t0 = Val t /\ length t = n /\ forall r l, nth_error t r = Some l -> l = seq 0 n.
Proof. exact @global_full. Qed.
Print Assumptions C70_partial.
Example C70_ex : updateTopology rr true 3 1 [[0]; [1]] = Val [[0; 1; 2]; [0; 1; 2]; [0; 1; 2]].
Proof. reflexivity. Qed.

(** A topology made in random mode is kept when the mode is switched to global. *)
Theorem C70_refuted : exists n K t, updateTopology rr false n K [] = Val t /\ updateTopology rr true n K t = Val t /\ nth_error t 1 = Some [1] /\ n = 3.
Proof. exists 3, 1. eexists. split; [vm_compute; reflexivity|]. vm_compute. repeat split; reflexivity. Qed.
Print Assumptions C70_refuted.

(** ** C71: moving a map *)
(** Landmarks and velocities after the move: the pairs of the landmarks that are not dropped, each with
    its own new velocity, and the pairs of those landmarks of the own and of the neighbour's best map
    that no landmark belongs to and that are drawn.  Which landmarks belong together is an assignment of
    least cost, cut off at c. *)
Theorem C71_partial : forall (A Tr : Type) (d : A -> A -> Z) c (o : draw (A := A)) (p g : part (A := A) (Tr := Tr)),
  length (vel p) = length (lms p) -> length (bvel p) = length (blms p) -> length (bvel g) = length (blms g) ->
  exists l v asp asg mp mg np ng,
    updateLandmarkVelocity d c o p g = Val (l, v) /\ length l = length v /\
    optimal false (Nat.max (length (lms p)) (length (blms p))) (entry d c (lms p) (blms p)) asp /\
    optimal false (Nat.max (length (lms p)) (length (blms g))) (entry d c (lms p) (blms g)) asg /\
    (forall i, i < length (lms p) -> partner_of d c asp (lms p) (blms p) i (mp i) /\ partner_of d c asg (lms p) (blms g) i (mg i)) /\
    (forall j, np j = true <-> forall i, ~ together d c asp (lms p) (blms p) i j) /\
    (forall j, ng j = true <-> forall i, ~ together d c asg (lms p) (blms g) i j) /\
    Permutation (combine l v)
      (select (fun i => negb (deleted o (mp i) (mg i) i)) (fun i q => (fst q, accel o i (snd q) (fst q) (mp i) (mg i))) (combine (lms p) (vel p)) ++
       select (fun j => np j && ap o j) (fun _ q => q) (combine (blms p) (bvel p)) ++
       select (fun j => ng j && ag o j) (fun _ q => q) (combine (blms g) (bvel g))).
Proof. exact @move_map. Qed.
Print Assumptions C71_partial.

(** Three landmarks at 0, 10 and 50 with velocities 1, 2, 3; best map at 50, 90 and 11 of its own and at 0
    of the neighbour; cut-off 5.  The landmark at 10 is dropped by its draw, 50 takes its place, and the
    one at 90 is added. *)
Example C71_ex : updateLandmarkVelocity dist 5%Z (DR (fun _ => false) (fun i => i =? 1) (fun _ => false) (fun _ => true) (fun _ => true) (fun _ v _ _ _ => (v + 100)%Z))
    (PT 0%Z [0; 10; 50]%Z [1; 2; 3]%Z 0%Z [50; 90; 11]%Z [4; 5; 6]%Z NegInf NegInf)
    (PT 0%Z [] [] 0%Z [0]%Z [7]%Z NegInf NegInf) = Val ([0; 50; 90]%Z, [101; 103; 5]%Z).
Proof. vm_compute. reflexivity. Qed.

(** The same best landmark is added twice when a particle is its own best neighbour: its map loses the
    landmark 5 in the first move and gets it twice in the second. *)
Theorem C71_refuted : exists s0 s1 s2 p1 p2, start = Val s0 /\
  moveParticles dist 10 Z.add rr true 1 (to []) (fun _ => drop) s0 = Val s1 /\ moveParticles dist 10 Z.add rr true 1 (to []) (fun _ => grow) s1 = Val s2 /\
  nth_error (parts s1) 0 = Some p1 /\ lms p1 = [] /\ blms p1 = [5%Z] /\ nth_error (parts s2) 0 = Some p2 /\ lms p2 = [5%Z; 5%Z].
Proof.
  do 5 eexists. split; [vm_compute; reflexivity|]. split; [vm_compute; reflexivity|]. split; [vm_compute; reflexivity|]. split; [vm_compute; reflexivity|].
  split; [vm_compute; reflexivity|]. split; [vm_compute; reflexivity|]. split; vm_compute; reflexivity.
Qed.
Print Assumptions C71_refuted.
