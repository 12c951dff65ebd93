(** C41, C61 and C62: birth candidates of the PHD filter. *)
From Coq Require Import List Bool Arith Lia.
From Verif Require Import Base ListUtil Loop BirthModel BirthSpec BirthProofs.
Import ListNotations.

(** C41: the scan increments the end iterator exactly if the last candidate leaves the list;
    otherwise the candidates with enough support (or all, when few landmarks are visible) become
    Gaussians, in order, the ones neither supported nor checked too often stay, in order, and
    each has been checked once more. *)
Theorem C41_scan_partial : forall T cntT chkT curT fov l,
  ((exists b c, l = b ++ [c] /\ (cntT <= nsup T c \/ chkT < S (nchk T c) \/ fov <= curT)) ->
   scan T cntT chkT curT fov l = UB BadIterator) /\
  (~ (exists b c, l = b ++ [c] /\ (cntT <= nsup T c \/ chkT < S (nchk T c) \/ fov <= curT)) ->
   scan T cntT chkT curT fov l =
     Val (map (fun c => CA T (clm T c) (nsup T c) (S (nchk T c)))
            (filter (fun c => negb ((cntT <=? nsup T c) || (chkT <? S (nchk T c)) || (fov <=? curT))) l),
          map (clm T) (filter (fun c => (cntT <=? nsup T c) || (fov <=? curT)) l))).
Proof. exact scan_exact. Qed.
Print Assumptions C41_scan_partial.

(** Every candidate list runs into it unless measurements keep coming: after at most
    1 + check threshold further calls. *)
Theorem C41_always_fails : forall T cntT chkT curT n fovs l b c, l = b ++ [c] ->
  S chkT - nchk T c <= n -> length fovs = S n -> scans T cntT chkT curT fovs l = UB BadIterator.
Proof. exact scans_fail. Qed.
Print Assumptions C41_always_fails.

(** An unused measurement goes to the first candidate close to it; if there is none it becomes
    a Gaussian at once or a new candidate at the end of the list. *)
Theorem C41_measurement : forall T near corr inv cntT curT i nZ fov z l tl, z < nZ ->
  (forall b c a, first_with (fun c => near i (clm T c) z = true) l b c a ->
     use_measurement T near corr inv cntT curT i nZ fov z (l, tl) =
       Val (b ++ CA T (corr i (clm T c) z) (S (nsup T c)) (nchk T c) :: a, tl)) /\
  ((forall c, In c l -> near i (clm T c) z <> true) ->
     (cntT = 1 \/ fov <= curT -> use_measurement T near corr inv cntT curT i nZ fov z (l, tl) = Val (l, tl ++ [inv i z])) /\
     (~ (cntT = 1 \/ fov <= curT) -> use_measurement T near corr inv cntT curT i nZ fov z (l, tl) = Val (l ++ [CA T (inv i z) 1 0], tl))).
Proof. exact use_one. Qed.
Print Assumptions C41_measurement.

(** Each measurement counts once: supports and direct births together grow by their number. *)
Theorem C41_count : forall T near corr inv cntT curT i nZ fov zs l tl, (forall z, In z zs -> z < nZ) ->
  exists l' tl', use_all T near corr inv cntT curT i nZ fov zs (l, tl) = Val (l', tl') /\
  total (map (nsup T) l') + length tl' = total (map (nsup T) l) + length tl + length zs /\
  (exists k, map (nchk T) l' = map (nchk T) l ++ repeat 0 k).
Proof. exact use_all_ok. Qed.
Print Assumptions C41_count.

(** Candidates that a finished call leaves behind are below both thresholds. *)
Theorem C41_waiting : forall T near corr inv cntT chkT curT i nZ s s', birth_one T near corr inv cntT chkT curT i nZ s = Val s' ->
  (forall c, In c (scands T s) -> 1 <= nsup T c) ->
  sunused T s' = [] /\ forall c, In c (scands T s') -> waiting T cntT chkT c.
Proof. exact birth_waiting. Qed.
Print Assumptions C41_waiting.

(** With count threshold 1 (the default) every unused measurement becomes a Gaussian at once. *)
Theorem C41_direct : forall T near corr inv cntT chkT curT i nZ s, cntT = 1 -> scands T s = [] ->
  (forall z, In z (sunused T s) -> z < nZ) ->
  birth_one T near corr inv cntT chkT curT i nZ s = Val (SL T [] [] (sfov T s) (map (inv i) (rev (sunused T s))) (sparent T s)).
Proof. exact birth_direct. Qed.
Print Assumptions C41_direct.

(** C61: what a particle works with.  Without resampling, or when it is its own parent, its own
    lists; when the parent slot is behind it, the parent's lists; when the parent slot is before
    it, the parent's lists after they were used up. *)
Theorem C61_copies_partial : forall T near corr inv cntT chkT curT res nZ ss ss',
  addBirthGaussians T near corr inv cntT chkT curT res nZ ss = Val ss' -> length ss' = length ss /\
  forall i s, nth_error ss i = Some s -> exists s2, nth_error ss' i = Some s2 /\
  (res = false \/ sparent T s = i -> birth_one T near corr inv cntT chkT curT i nZ s = Val s2) /\
  (res = true -> i < sparent T s -> exists p, nth_error ss (sparent T s) = Some p /\
     birth_one T near corr inv cntT chkT curT i nZ (inherit T s p) = Val s2) /\
  (res = true -> sparent T s < i -> exists p, nth_error ss' (sparent T s) = Some p /\ sunused T p = [] /\
     birth_one T near corr inv cntT chkT curT i nZ (inherit T s p) = Val s2).
Proof. exact birth_copies. Qed.
Print Assumptions C61_copies_partial.

(** C62: in an orderly history no measurement number is out of range. *)
Theorem C62_numbers_partial : forall T near corr inv cntT chkT curT n es res, orderly n false es ->
  erun T near corr inv cntT chkT curT (filt_new T n res) es <> UB OutOfBounds.
Proof. exact new_no_oob. Qed.
Print Assumptions C62_numbers_partial.

(** Landmarks are numbers here, a measurement supports the candidate made from it. *)
Definition ex_near (i lm z : nat) : bool := lm =? z.
Definition ex_step := birth_one nat ex_near (fun _ lm _ => lm) (fun _ z => z) 2 2 1.

(** Candidates 3 (two supports), 4 (one), 5 (checked twice) and 6 (fresh). *)
Example C41_scan_ex : scan nat 2 2 1 7 [CA nat 3 2 0; CA nat 4 1 1; CA nat 5 1 2; CA nat 6 1 0] =
  Val ([CA nat 4 1 2; CA nat 6 1 1], [3]).
Proof. reflexivity. Qed.
Example C41_always_fails_ex : scans nat 2 2 1 [7; 7] [CA nat 3 1 1; CA nat 4 1 0] = Val [CA nat 4 1 2] /\
  scans nat 2 2 1 [7; 7; 7] [CA nat 3 1 1; CA nat 4 1 0] = UB BadIterator.
Proof. split; reflexivity. Qed.
Example C41_measurement_ex : use_measurement nat ex_near (fun _ lm _ => lm) (fun _ z => z) 2 1 0 9 7 5
    ([CA nat 4 1 1; CA nat 5 1 2], []) = Val ([CA nat 4 1 1; CA nat 5 2 2], []) /\
  first_with (fun c => ex_near 0 (clm nat c) 5 = true) [CA nat 4 1 1; CA nat 5 1 2] [CA nat 4 1 1] (CA nat 5 1 2) [].
Proof.
  split; [reflexivity|]. split; [reflexivity|]. split; [reflexivity|]. intros y [<-|[]]. discriminate.
Qed.
(** A call that ends normally: measurement 4 supports candidate 4, which matures; measurement 6
    starts a candidate. *)
Example C41_waiting_ex : ex_step 0 9 (SL nat [6; 4] [CA nat 4 1 1; CA nat 5 1 1] 7 [] 0) =
  Val (SL nat [] [CA nat 5 1 2; CA nat 6 1 1] 7 [4] 0).
Proof. reflexivity. Qed.
Example C41_direct_ex : birth_one nat ex_near (fun _ lm _ => lm) (fun _ z => z + 10) 1 1 1 0 9 (SL nat [6; 4] [] 7 [] 0) =
  Val (SL nat [] [] 7 [14; 16] 0).
Proof. reflexivity. Qed.
(** Slot 0 takes over from slot 1. *)
Example C61_ex : addBirthGaussians nat ex_near (fun _ lm _ => lm) (fun _ z => z) 1 1 1 true 9
    [SL nat [3] [] 7 [] 1; SL nat [5] [] 7 [] 1] = Val [SL nat [] [] 7 [5] 1; SL nat [] [] 7 [5] 1].
Proof. reflexivity. Qed.
Definition ex_events : list event :=
  [Update 3 [([2; 0], 7); ([1], 0)] (Some [0; 0]); Predict; Update 0 [([], 0); ([], 0)] None; Predict].
Example C62_ex : orderly 2 false ex_events /\
  erun nat ex_near (fun _ lm _ => lm) (fun _ z => z) 1 1 1 (filt_new nat 2 false) ex_events =
    Val (FI nat 0 true [SL nat [] [] 7 [] 0; SL nat [] [] 0 [] 0]).
Proof.
  split; [|reflexivity]. cbn. repeat split; try lia; try discriminate.
  - intros u f z [E|[E|[]]]; injection E as <- <-; cbn; lia.
  - injection H as <-. reflexivity.
  - intros p Hp. injection H as <-. cbn in Hp. lia.
  - intros u f z [E|[E|[]]]; injection E as <- <-; intros [].
Qed.

(** C41 is false: from a new filter, one measurement and two calls reach the bad increment. *)
Theorem C41_refuted : exists es, orderly 1 false es /\
  erun nat ex_near (fun _ lm _ => lm) (fun _ z => z) 2 1 1 (filt_new nat 1 false) es = UB BadIterator.
Proof.
  exists [Update 1 [([0], 7)] None; Predict; Update 1 [([], 7)] None; Predict]. split; [|vm_compute; reflexivity].
  cbn. repeat split; try lia; try discriminate; intros u f z [E|[]]; injection E as <- <-; cbn; lia.
Qed.
Print Assumptions C41_refuted.

(** C61 is false: slot 1 is a copy of slot 0 but gets none of its births. *)
Theorem C61_refuted : exists ss, nth_error ss 0 = Some (SL nat [3] [] 7 [] 0) /\ option_map (sparent nat) (nth_error ss 1) = Some 0 /\
  omap (map (sadded nat)) (addBirthGaussians nat ex_near (fun _ lm _ => lm) (fun _ z => z) 1 1 1 true 9 ss) = Val [[3]; []].
Proof. exists [SL nat [3] [] 7 [] 0; SL nat [5] [] 7 [] 0]. vm_compute. auto. Qed.
Print Assumptions C61_refuted.

(** C62 is false: two updates in a row, the second without measurements, then a prediction. *)
Theorem C62_refuted : exists es, es = [Update 1 [([0], 0)] None; Update 0 [([], 0)] None; Predict] /\
  erun nat ex_near (fun _ lm _ => lm) (fun _ z => z) 1 1 1 (filt_new nat 1 false) es = UB OutOfBounds.
Proof. eexists. split; [reflexivity|]. vm_compute. reflexivity. Qed.
Print Assumptions C62_refuted.
