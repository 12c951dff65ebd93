(** Model of the read access of the filters to the maps of their particles (include/RBPHDFilter.hpp,
    include/FastSLAM.hpp, include/RBLMBFilter.hpp, include/RBCBMeMBerFilter.hpp), of the check
    RBPHDFilter::checkMapIntegrity, of the parts of a pose (include/Pose.hpp), and of the converter of
    log files src/convertLogFiles.cpp.

    Maps are those of GMModel.v and TracksModel.v, so without rounding; NaN is modelled in the section
    on the check only. *)
From Coq Require Import QArith ZArith List Bool Arith.
From Verif Require Import Base ListUtil GMModel TracksModel.
Import ListNotations.

(** ** Gaussians of a particle *)
(** particleSet_[i] for 0 <= i < nParticles_; include/ParticleFilter.hpp:199-200. *)
Definition particle {A : Type} (ps : list A) (i : Z) : option A :=
  if ((0 <=? i) && (i <? Z.of_nat (length ps)))%Z then nth_error ps (Z.to_nat i) else None.

(** getGMSize, include/RBPHDFilter.hpp:1156-1163, include/FastSLAM.hpp:769-777. *)
Definition getGMSize (ps : list gm) (i : Z) : Z :=
  match particle ps i with Some g => getGaussianCount g | None => -1 end.

(** getLandmark, include/RBPHDFilter.hpp:1165-1182, include/FastSLAM.hpp:779-797: None if false is
    returned, otherwise the landmark copied out and the weight. *)
Definition getLandmark (h : heap) (ps : list gm) (i m : Z) : outcome (option (lmk * Q)) :=
  let sz := getGMSize ps i in
  if ((sz =? -1) || (m <? 0) || (sz <=? m))%Z then Val None else
  let* g := of_option OutOfBounds (nth_error ps (Z.to_nat i)) in
  let* r := getGaussian g (Z.to_nat m) in
  match fst (fst r) with
  | None => UB NullDeref
  | Some p => let* l := deref h p in Val (Some (l, snd (fst r)))
  end.

(** The loop that reads a map: src/rbphdslam6dSim.cpp:733-738 (the same in include/RBPHDSLAM_2D.hpp:831-836). *)
Fixpoint read_from (h : heap) (ps : list gm) (i m : Z) (n : nat) : outcome (list (lmk * Q)) :=
  match n with
  | O => Val []
  | S n' => let* x := getLandmark h ps i m in
            let* y := read_from h ps i (m + 1) n' in
            Val (match x with Some v => v :: y | None => y end)
  end.
(** Part of the above, src/rbphdslam6dSim.cpp:733-738, include/RBPHDSLAM_2D.hpp:831-836. *)
Definition read_map (h : heap) (ps : list gm) (i : Z) : outcome (list (lmk * Q)) :=
  read_from h ps i 0 (Z.to_nat (getGMSize ps i)).

(** ** Tracks of a particle *)
(** getTrackNum, include/RBLMBFilter.hpp:409-416, include/RBCBMeMBerFilter.hpp:409-416. *)
Definition getTrackNum (ps : list (list track)) (i : Z) : Z :=
  match particle ps i with Some ts => Z.of_nat (length ts) | None => -1 end.

(** getTrack, include/RBLMBFilter.hpp:381-392, include/RBCBMeMBerFilter.hpp:381-392: [dst] is the
    caller's track; returns it with the return value. *)
Definition getTrack (h : heap) (ps : list (list track)) (i m : Z) (dst : track) : outcome (heap * track * bool) :=
  let sz := getTrackNum ps i in
  if ((sz =? -1) || (m <? 0) || (sz <=? m))%Z then Val (h, dst, false) else
  let* ts := of_option OutOfBounds (nth_error ps (Z.to_nat i)) in
  let* t := of_option Aborted (nth_error ts (Z.to_nat m)) in
  let* r := track_copyTo h t dst in
  Val (fst r, snd r, true).

(** ** Integrity check *)
(** A double that may be NaN (None); infinities are left out; include/RBPHDFilter.hpp:1100-1150. *)
Definition num := option Q.
(** Part of the above, include/RBPHDFilter.hpp:1100-1150. *)
Definition is_nan (x : num) : bool := match x with None => true | Some _ => false end.
(** Part of the above, include/RBPHDFilter.hpp:1100-1150. *)
Definition nadd (x y : num) : num := match x, y with Some a, Some b => Some (a + b)%Q | _, _ => None end.

(** A Gaussian of the mixture: mean, rows of the covariance, weight; None is an empty slot;
    include/GaussianMixture.hpp:60-64. *)
Record gauss := Gauss { u_x : list num; u_S : list (list num); u_w : num }.
(** A mixture for the check: n_ and gList_; include/GaussianMixture.hpp:213-214. *)
Record nmap := NMap { n_count : nat; n_slots : list (option gauss) }.

(** lm_x.transpose() * lm_S * lm_x with ones, include/RBPHDFilter.hpp:1130-1131. *)
Definition row_sum (r : list num) : num := fold_left nadd r (Some 0%Q).
(** Part of the above, include/RBPHDFilter.hpp:1130-1131. *)
Definition ones_form (S : list (list num)) : num := fold_left nadd (map row_sum S) (Some 0%Q).

(** The body of the inner loop, lines 1105-1146: true if the loop continues. *)
Definition check_one (o : option gauss) : bool :=
  match o with
  | None => true
  | Some g =>
      negb (existsb is_nan (u_x g)) &&
      (negb (existsb (existsb is_nan) (u_S g)) &&
       match ones_form (u_S g) with None => false | Some q => negb (Qle_bool q 0) end) &&
      negb (is_nan (u_w g))
  end.

(** The loop over m, lines 1096-1148. *)
Fixpoint check_slots (m : nmap) (is : list nat) : outcome bool :=
  match is with
  | [] => Val true
  | i :: r => let* o := of_option OutOfBounds (nth_error (n_slots m) i) in
              if check_one o then check_slots m r else Val false
  end.
(** checkMapIntegrity, lines 1091-1154. *)
Fixpoint check_maps (ps : list nmap) : outcome bool :=
  match ps with
  | [] => Val true
  | m :: r => let* b := check_slots m (seq 0 (n_count m)) in
              if b : bool then check_maps r else Val false
  end.

(** ** Parts of a pose *)
Section Pose.
Context {A T : Type}.
(** Pose<nDim, nPosDim, nRotDim>: the vector x_ (position first), the time; [np] and [nr] are the
    template parameters; include/Pose.hpp:50-57 and include/RandomVec.hpp:655-656. *)
Record pose := Pose { ps_x : list A; ps_t : T }.
(** getPos and getRot, include/Pose.hpp:116-118 and 155-157. *)
Definition getPos (np : nat) (p : pose) : list A := firstn np (ps_x p).
(** Part of the above, include/Pose.hpp:116-118 and 155-157. *)
Definition getRot (np nr : nat) (p : pose) : list A := firstn nr (skipn np (ps_x p)).
(** setPos and setRot, lines 123-125 and 162-164; with a time, lines 140-143 and 179-182. *)
Definition setPos (np : nat) (x : list A) (p : pose) : pose := Pose (x ++ skipn np (ps_x p)) (ps_t p).
(** Part of the above, include/Pose.hpp:123-125 and 162-164, include/Pose.hpp:140-143 and 179-182. *)
Definition setRot (np nr : nat) (r : list A) (p : pose) : pose :=
  Pose (firstn np (ps_x p) ++ r ++ skipn (np + nr) (ps_x p)) (ps_t p).
(** Part of the above, include/Pose.hpp:123-125 and 162-164, include/Pose.hpp:140-143 and 179-182. *)
Definition setPosT (np : nat) (x : list A) (t : T) (p : pose) : pose := Pose (x ++ skipn np (ps_x p)) t.
(** Part of the above, include/Pose.hpp:123-125 and 162-164, include/Pose.hpp:140-143 and 179-182. *)
Definition setRotT (np nr : nat) (r : list A) (t : T) (p : pose) : pose :=
  Pose (firstn np (ps_x p) ++ r ++ skipn (np + nr) (ps_x p)) t.
End Pose.

(** ** Converting log files *)
Section Convert.
Context {A : Type}.   (* numbers as printed *)
(** What a line of a log file holds.  Old: "Timesteps: %d", "k = %lf", "nParticles = %d",
    "nParticles: %d", "Timestep: %lf Particle: %d Map Size: %d"; rows of numbers in both formats. *)
Inductive line :=
| LSteps (n : Z)
| LTime (t : A)
| LNPart (n : Z)
| LNPart2 (n : Z)
| LMap (t : A) (pid : Z) (size : Z)
| LRow (xs : list A)
| LNewPose (t : A) (i : Z) (xs : list A)     (* "%lf %d %lf %lf %lf %lf" *)
| LNewLmk (t : A) (i : Z) (xs : list A).     (* "%lf %d %lf %lf %lf %lf %lf %lf" *)

(** Result of reading: the lines written and the exit status; the files are kept on failure. *)
(** Rows of one time step, src/convertLogFiles.cpp:85-89; the first part is what was written. *)
Fixpoint pose_rows (t : A) (i : Z) (n : nat) (f : list line) (out : list line) : list line * option (list line) :=
  match n with
  | O => (out, Some f)
  | S n' => match f with
            | LRow [x; y; r; w] :: f' => pose_rows t (i + 1) n' f' (out ++ [LNewPose t i [x; y; r; w]])
            | _ => (out, None)
            end
  end.
(** The loop over the time steps, lines 80-90; the status is 0, 2, 3 or 4. *)
Fixpoint pose_steps (n : nat) (f : list line) (out : list line) : list line * Z :=
  match n with
  | O => (out, 0%Z)
  | S n' =>
      match f with
      | LTime t :: f1 =>
          match f1 with
          | LNPart np :: f2 =>
              match pose_rows t 0 (Z.to_nat np) f2 out with
              | (out', Some f3) => pose_steps n' f3 out'
              | (out', None) => (out', 4%Z)
              end
          | _ => (out, 3%Z)
          end
      | _ => (out, 2%Z)
      end
  end.
(** Lines 73-90. *)
Definition convert_pose (f : list line) : list line * Z :=
  match f with
  | LSteps n :: f' => pose_steps (Z.to_nat n) f' []
  | _ => ([], 1%Z)
  end.

(** Rows of one map, lines 103-107: S_yx is not written. *)
Fixpoint lmk_rows (t : A) (pid : Z) (n : nat) (f : list line) (out : list line) : list line * option (list line) :=
  match n with
  | O => (out, Some f)
  | S n' => match f with
            | LRow [x; y; sxx; sxy; syx; syy; w] :: f' => lmk_rows t pid n' f' (out ++ [LNewLmk t pid [x; y; sxx; sxy; syy; w]])
            | _ => (out, None)
            end
  end.
(** The loop of lines 102-108; every round consumes a line, so the length of the file is fuel enough. *)
Fixpoint lmk_maps (fuel : nat) (f : list line) (out : list line) : outcome (list line * Z) :=
  match f with
  | LMap t pid n :: f' =>
      match fuel with
      | O => OutOfFuel
      | S fu => match lmk_rows t pid (Z.to_nat n) f' out with
                | (out', Some f2) => lmk_maps fu f2 out'
                | (out', None) => Val (out', 7%Z)
                end
      end
  | _ => Val (out, 0%Z)
  end.
(** Lines 97-108. *)
Definition convert_lmk (f : list line) : outcome (list line * Z) :=
  match f with
  | LSteps _ :: LNPart2 _ :: f' => lmk_maps (length f') f' []
  | LSteps _ :: _ => Val ([], 6%Z)
  | _ => Val ([], 5%Z)
  end.

(** The four files of the directory; None if absent; src/convertLogFiles.cpp:53-68. *)
Record dir := Dir { d_lmk : option (list line); d_lmk_bak : option (list line); d_pose : option (list line); d_pose_bak : option (list line) }.

(** main from line 53 on.  rename (lines 61-64) throws if the source does not exist (Aborted), and
    replaces the target; fopen with "w" makes an empty file. *)
Definition convert (d : dir) : outcome (dir * Z) :=
  let* l := of_option Aborted (d_lmk d) in
  let* p := of_option Aborted (d_pose d) in
  let r := convert_pose p in
  if (snd r =? 0)%Z then
    let* q := convert_lmk l in
    Val (Dir (Some (fst q)) (Some l) (Some (fst r)) (Some p), snd q)
  else Val (Dir (Some []) (Some l) (Some (fst r)) (Some p), snd r).
End Convert.
