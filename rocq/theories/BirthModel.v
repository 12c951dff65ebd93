(** Model of RBPHDFilter::addBirthGaussians (include/RBPHDFilter.hpp:1004-1088).

    Simplifications.  A landmark is any type T.  [near i lm z] is the test of line 1033
    (Mahalanobis distance of the expected measurement of candidate lm, seen from particle i, to
    measurement number z within the support distance), [corr i lm z] the Kalman correction of
    line 1034, [inv i z] the inverse measurement of line 1050.  The counters are unbounded
    naturals instead of unsigned int. *)
From Coq Require Import List Bool Arith.
From Verif Require Import Base ListUtil Loop.
Import ListNotations.
Local Open Scope nat_scope.

Section Birth.
Variable T : Type.
Variable near : nat -> T -> nat -> bool.
Variable corr : nat -> T -> nat -> T.
Variable inv : nat -> nat -> T.
Variables cntT chkT curT : nat. (* thresholds of the configuration, include/RBPHDFilter.hpp:97-108 *)

(** BirthGaussianCandidate, include/RBPHDFilter.hpp:174-178. *)
Record cand := CA { clm : T; nsup : nat; nchk : nat }.

(** What particle slot i holds: unused_measurements_, birthGaussians_, nLandmarksInFOV_, the
    landmarks added to its map by this call, and the parent identifier of the particle;
    include/RBPHDFilter.hpp:256-273. *)
Record slot := SL { sunused : list nat; scands : list cand; sfov : nat; sadded : list T; sparent : nat }.

(** Search for a candidate close to the measurement, include/RBPHDFilter.hpp:1026-1039; None
    when no candidate is. *)
Fixpoint support (i z : nat) (l : list cand) : option (list cand) :=
  match l with
  | [] => None
  | c :: r =>
    if near i (clm c) z then Some (CA (corr i (clm c) z) (S (nsup c)) (nchk c) :: r)
    else option_map (cons c) (support i z r)
  end.

(** One unused measurement, include/RBPHDFilter.hpp:1018-1061. *)
Definition use_measurement (i nZ fov z : nat) (s : list cand * list T) : outcome (list cand * list T) :=
  if z <? nZ then
    match support i z (fst s) with
    | Some l => Val (l, snd s)
    | None =>
      if (cntT =? 1) || (fov <=? curT) then Val (fst s, snd s ++ [inv i z])
      else Val (fst s ++ [CA (inv i z) 1 0], snd s)
    end
  else UB OutOfBounds.

(** while(unused_measurements_[i].size() > 0), from the back, include/RBPHDFilter.hpp:1016-1063;
    the argument is the reversed list. *)
Fixpoint use_all (i nZ fov : nat) (zs : list nat) (s : list cand * list T) : outcome (list cand * list T) :=
  match zs with
  | [] => Val s
  | z :: r => let* s' := use_measurement i nZ fov z s in use_all i nZ fov r s'
  end.

(** Condition of the inner while loop, include/RBPHDFilter.hpp:1069-1071. *)
Definition leaves (fov : nat) (c : cand) : bool := (cntT <=? nsup c) || (chkT <? nchk c) || (fov <=? curT).
(** Whether a Gaussian is added for a leaving candidate, include/RBPHDFilter.hpp:1072-1076. *)
Definition matures (fov : nat) (c : cand) : bool := (cntT <=? nsup c) || (fov <=? curT).
(** Part of the above, include/RBPHDFilter.hpp:1072-1076. *)
Definition checked (c : cand) : cand := CA (clm c) (nsup c) (S (nchk c)).

(** Scan of the candidate list, include/RBPHDFilter.hpp:1066-1084: the argument is the part of
    the list from the iterator on.  The outer for loop and the inner while loop do the same to
    the candidate the iterator points to: count the check, test the condition.  A candidate
    that stays advances the iterator.  One that leaves is erased; erase returns the next
    position, and if that is the end the inner loop breaks and the for loop increments the end
    iterator. *)
Fixpoint scan (fov : nat) (l : list cand) : outcome (list cand * list T) :=
  match l with
  | [] => Val ([], [])
  | c :: r =>
    let c' := checked c in
    if leaves fov c' then
      let born := if matures fov c' then [clm c'] else [] in
      match r with
      | [] => UB BadIterator
      | _ => let* s := scan fov r in Val (fst s, born ++ snd s)
      end
    else let* s := scan fov r in Val (c' :: fst s, snd s)
  end.

(** One particle after the copying of lines 1008-1014. *)
Definition birth_one (i nZ : nat) (s : slot) : outcome slot :=
  let* u := use_all i nZ (sfov s) (rev (sunused s)) (scands s, []) in
  let* v := scan (sfov s) (fst u) in
  Val (SL [] (fst v) (sfov s) (snd u ++ snd v) (sparent s)).

(** Loop over the particles, include/RBPHDFilter.hpp:1006-1086; [resampled] is resampleOccured_,
    the parent identifier is used as slot number. *)
Definition birth_step (resampled : bool) (nZ i : nat) (ss : list slot) : outcome (list slot) :=
  match nth_error ss i with
  | None => UB OutOfBounds
  | Some s =>
    let* s1 :=
      if resampled && negb (sparent s =? i) then
        match nth_error ss (sparent s) with
        | None => UB OutOfBounds
        | Some p => Val (SL (sunused p) (scands p) (sfov s) (sadded s) (sparent s))
        end
      else Val s in
    let* s2 := birth_one i nZ s1 in
    Val (upd ss i s2)
  end.
(** Part of the above, include/RBPHDFilter.hpp:1006-1086. *)
Definition addBirthGaussians (resampled : bool) (nZ : nat) (ss : list slot) : outcome (list slot) :=
  for_ (length ss) (birth_step resampled nZ) ss.

(** Calls on the filter that touch these lists: update with n measurements, which sets for each
    slot the unused measurements, the number of visible landmarks and, at a resampling, the
    parents (arguments, from updateMap and resample); predict with birthGaussianCheck;
    include/RBPHDFilter.hpp:417-542. *)
Inductive event := Update (n : nat) (obs : list (list nat * nat)) (parents : option (list nat)) | Predict.

(** Size of measurements_, resampleOccured_ and the slots; include/RBPHDFilter.hpp:256-277. *)
Record filt := FI { fz : nat; fres : bool; fslots : list slot }.

(** include/RBPHDFilter.hpp:270-273: new values in a slot. *)
Definition set_obs (s : slot) (o : list nat * nat) : slot := SL (fst o) (scands s) (snd o) (sadded s) (sparent s).
(** include/RBPHDFilter.hpp:1009: the parent identifier of a slot. *)
Definition set_parent (s : slot) (p : nat) : slot := SL (sunused s) (scands s) (sfov s) (sadded s) p.
(** Element-wise update of the vectors of include/RBPHDFilter.hpp:256-273. *)
Fixpoint zip {A B C : Type} (f : A -> B -> C) (l : list A) (m : list B) : list C :=
  match l, m with a :: l', b :: m' => f a b :: zip f l' m' | _, _ => [] end.

(** update, include/RBPHDFilter.hpp:446-542 (with an empty measurement set it returns at once,
    452-453, after the set was replaced), and predict, 417-443. *)
Definition estep (s : filt) (e : event) : outcome filt :=
  match e with
  | Update n obs parents =>
    if n =? 0 then Val (FI 0 (fres s) (fslots s))
    else
      let ss := zip set_obs (fslots s) obs in
      match parents with
      | None => Val (FI n false ss)
      | Some ps => Val (FI n true (zip set_parent ss ps))
      end
  | Predict =>
    let* ss := addBirthGaussians (fres s) (fz s) (fslots s) in
    Val (FI (fz s) (fres s) ss)
  end.
(** Part of the above, include/RBPHDFilter.hpp:446-542. *)
Fixpoint erun (s : filt) (es : list event) : outcome filt :=
  match es with
  | [] => Val s
  | e :: r => let* s' := estep s e in erun s' r
  end.
(** A new filter with n particles, include/RBPHDFilter.hpp:349-398; resampleOccured_ starts
    uninitialised and is an argument. *)
Definition filt_new (n : nat) (res : bool) : filt := FI 0 res (map (fun i => SL [] [] 0 [] i) (seq 0 n)).
End Birth.
