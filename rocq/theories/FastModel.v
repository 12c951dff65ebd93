(** Model of FastSLAM::updateMap and of the part of FastSLAM::update that calls it
    (include/FastSLAM.hpp:389-432, 434-736).

    Simplifications.  One thread.  A particle is its weight and its map; the pose is fixed, the
    copies made here have the same one.  A landmark is any type T: [pdet] is
    probabilityOfDetection with its flag isCloseToSensingLimit, [logl] gives the logarithms of
    the measurement likelihoods (None when no measurement can be expected; log 0 is any integer
    not above the limit), [correct z] the Kalman correction with measurement z (None when it
    is refused), [inv], [near], [corr] inverse measurement, support test and correction of
    candidates.  Logarithms of likelihoods are integers; the logarithmic weight of a landmark is
    represented by its exponential, a rational (the odds of existence), [expo] is exp.  A
    result NaN or +infinity is the outcome DivByZero.  [prn] is prune(mapExistencePruneThreshold_)
    of the map (C05), [pick] the priority queue of Murty's algorithm, [big] its exclusion
    constant.  Measurements are numbers 0..nZ-1; [pfa] is clutterIntensityIntegral(nZ) / nZ. *)
From Coq Require Import ZArith List Bool Arith QArith Qcanon.
From Verif Require Import Base ListUtil QcLra Loop HungarianModel ReduceModel MurtyModel BirthModel.
Import ListNotations.
Local Open Scope nat_scope.

Section Fast.
Context {T : Type}.
Variable pdet : T -> Qc * bool.
Variable logl : T -> option (nat -> Z).
Variable correct : nat -> T -> option T.
Variable inv : nat -> T.
Variable near : T -> nat -> bool.
Variable corr : T -> nat -> T.
Variable expo : Z -> Qc.
Variable prn : list (Qc * T) -> list (Qc * T).
Variable pick : list node -> option (node * list node).
Variable big : Z.
Variable nZ : nat.
Variable pfa : Qc.
(** Config, include/FastSLAM.hpp:112-165: minLogMeasurementLikelihood_,
    maxDataAssocLogLikelihoodDiff_, maxNDataAssocHypotheses_, landmarkExistencePrior_,
    landmarkLockWeight_ (as odds), the three candidate thresholds and
    pruningMeasurementsThreshold_. *)
Variables lim maxDiff : Z.
Variable maxN : nat.
Variables prior lock : Qc.
Variables cntT chkT curT pruneT : nat.

(** particleSet_, landmarkCandidates_, nLandmarksInFOV_; include/FastSLAM.hpp:256-257. *)
Record fast := FA { fparts : list (Qc * list (Qc * T)); fcands : list (list (cand T)); ffov : list nat }.

(** Landmarks within sensor range: idx_inRange, lm_inRange, pd_inRange,
    include/FastSLAM.hpp:452-468; the first argument is the index of the head of the map. *)
Fixpoint visible (k : nat) (m : list (Qc * T)) : list (nat * T * Qc) :=
  match m with
  | [] => []
  | (_, t) :: r =>
    let '(pd, close) := pdet t in
    if negb (Qc_eq_bool pd 0) || close then (k, t, pd) :: visible (S k) r else visible (S k) r
  end.

(** likelihoodTable, include/FastSLAM.hpp:471-495. *)
Definition table (vis : list (nat * T * Qc)) : mat := fun m z =>
  match nth_error vis m with
  | Some (_, t, _) =>
    if z <? nZ then match logl t with Some f => Z.max lim (f z) | None => lim end else lim
  | None => lim
  end.

(** One row of the reduced problem, include/FastSLAM.hpp:534-541; None is a negative entry of
    da_current. *)
Definition remap (imap jmap a : list nat) (k : nat) (g : nat -> option nat) : outcome (nat -> option nat) :=
  let* x := of_option OutOfBounds (nth_error imap k) in
  let* q := of_option OutOfBounds (nth_error a k) in
  let* y := of_option OutOfBounds (nth_error jmap q) in
  Val (fset g x (if y <? nZ then Some y else None)).

(** Loop over the hypotheses, include/FastSLAM.hpp:516-545: (nH, da).  The number returned by
    findNextBest is stored in nH; the loop has no other bound, running out of [fuel] is a
    separate outcome. *)
Fixpoint hyps (fuel nr : nat) (f : nat -> option nat) (imap jmap : list nat) (M : murty) (nH : nat)
    (da : list (nat -> option nat)) : outcome (nat * list (nat -> option nat)) :=
  if nH <? maxN then
    match fuel with
    | O => OutOfFuel
    | S fuel' =>
      let* r := findNextBest pick M in
      let '(M', (k, a, s)) := r in
      if (k =? -1)%Z then Val (nH, da)
      else if (maxDiff <=? mbest M' - s)%Z then Val (Z.to_nat k - 1, da)
      else
        let* a' := of_option NullDeref a in
        let* d := for_ nr (remap imap jmap a') f in
        hyps fuel' nr f imap jmap M' (Z.to_nat k) (da ++ [d])
    end
  else Val (nH, da).

(** p / (1 - p), whose logarithm is added to a weight, include/FastSLAM.hpp:631,646. *)
Definition odds (p : Qc) : outcome Qc :=
  if Qcleb 0 p && Qcltb p 1 then Val (p / (1 - p))%Qc else UB DivByZero.
(** a / b, include/FastSLAM.hpp:619-627. *)
Definition quotient (a b : Qc) : outcome Qc := if Qc_eq_bool b 0 then UB DivByZero else Val (a / b)%Qc.

(** New weight of a landmark in range, include/FastSLAM.hpp:611-632. *)
Definition exist_update (seen : bool) (pd w : Qc) : outcome Qc :=
  let* p :=
    if seen then
      quotient ((1 - pd) * pfa * prior + pd * prior) (pfa + (1 - pfa) * pd * prior)
    else if Qcltb lock w then Val (1 / (1 + 1))%Qc
    else quotient ((1 - pd) * prior) ((1 - prior) + (1 - pd) * prior) in
  let* o := odds p in
  Val (w * o)%Qc.

(** Map, nLandmarksInFOV_, zUsed and logParticleWeight during the loop over the landmarks in
    range, include/FastSLAM.hpp:582-633. *)
Record lms := LM { lmap : list (Qc * T); lfov : nat; lused : list bool; llog : Z }.

(** Body of that loop, include/FastSLAM.hpp:598-632. *)
Definition lm_step (tab : mat) (vis : list (nat * T * Qc)) (d : nat -> option nat) (m : nat) (st : lms) : outcome lms :=
  let* v := of_option OutOfBounds (nth_error vis m) in
  let '(idx, _, pd) := v in
  let* g := of_option OutOfBounds (nth_error (lmap st) idx) in
  let '(w, t) := g in
  let done :=
    match d m with
    | Some z => if (z <? nZ) && (lim <? tab m z)%Z then option_map (pair z) (correct z t) else None
    | None => None
    end in
  match done with
  | Some (z, t') =>
    let* w' := exist_update true pd w in
    Val (LM (upd (lmap st) idx (w', t')) (S (lfov st)) (upd (lused st) z true) (llog st + tab m z)%Z)
  | None =>
    let* w' := exist_update false pd w in
    Val (LM (upd (lmap st) idx (w', t)) (lfov st) (lused st) (llog st))
  end.

(** Scan of the candidates after each unused measurement, include/FastSLAM.hpp:689-711: as in
    BirthModel (same two loops), with the weight newLandmarkWeight * nChecks; [o0] is the
    exponential of newLandmarkWeight. *)
Fixpoint fscan (o0 : Qc) (fov : nat) (l : list (cand T)) : outcome (list (cand T) * list (Qc * T)) :=
  match l with
  | [] => Val ([], [])
  | c :: r =>
    let c' := checked T c in
    if leaves T cntT chkT curT fov c' then
      let born := if matures T cntT curT fov c' then [(Qcpower o0 (nchk T c'), clm T c')] else [] in
      match r with
      | [] => UB BadIterator
      | _ => let* s := fscan o0 fov r in Val (fst s, born ++ snd s)
      end
    else let* s := fscan o0 fov r in Val (c' :: fst s, snd s)
  end.

(** One unused measurement, include/FastSLAM.hpp:648-713; candidates and map. *)
Definition birth_z (o0 : Qc) (fov z : nat) (st : list (cand T) * list (Qc * T)) : outcome (list (cand T) * list (Qc * T)) :=
  let st1 :=
    match support T (fun _ => near) (fun _ => corr) 0 z (fst st) with
    | Some l => (l, snd st)
    | None =>
      if (cntT =? 1) || (fov <=? curT) then (fst st, snd st ++ [(o0, inv z)])
      else (fst st ++ [CA T (inv z) 1 0], snd st)
    end in
  let* s := fscan o0 fov (fst st1) in
  Val (fst s, snd st1 ++ snd s).

(** Update of one hypothesis, include/FastSLAM.hpp:578-724: weight and map, candidates, and
    number of landmarks updated. *)
Definition hyp_update (tab : mat) (vis : list (nat * T * Qc)) (d : nat -> option nat)
    (p : Qc * list (Qc * T)) (cs : list (cand T)) : outcome ((Qc * list (Qc * T)) * list (cand T) * nat) :=
  let* st := for_ (length vis) (lm_step tab vis d) (LM (snd p) 0 (repeat false nZ) 0%Z) in
  let mp := if pruneT <=? nZ then prn (lmap st) else lmap st in
  let* o0 := odds prior in
  let* b := for_ nZ (fun z s => if nth z (lused st) true then Val s else birth_z o0 (lfov st) z s) (cs, mp) in
  Val ((fst p * expo (llog st), snd b)%Qc, fst b, lfov st).

(** copyParticle (include/ParticleFilter.hpp:278-301, C36) and copying of the candidates,
    include/FastSLAM.hpp:556-571; [res] is resampleOccured_. *)
Definition split (res : bool) (i nH : nat) (p : Qc * list (Qc * T)) (s : fast) : outcome fast :=
  let p' := (fst p / QcN nH, snd p)%Qc in
  let parts := upd (fparts s) i p' ++ repeat p' (nH - 1) in
  if res then
    let* c := of_option OutOfBounds (nth_error (fcands s) i) in
    let* cs := for_ (nH - 1) (fun h cs => if length parts - S h <? length cs then Val (upd cs (length parts - S h) c)
                                          else UB OutOfBounds) (fcands s) in
    Val (FA parts cs (ffov s))
  else Val (FA parts (fcands s) (ffov s)).

(** pi[h], include/FastSLAM.hpp:554,564. *)
Definition slot_of (i h len : nat) : nat := if h =? 0 then i else len - h.

(** Body of the loop over the hypotheses, include/FastSLAM.hpp:578-724. *)
Definition hyp_step (tab : mat) (vis : list (nat * T * Qc)) (da : list (nat -> option nat)) (i h : nat) (s : fast) : outcome fast :=
  let* d := of_option OutOfBounds (nth_error da h) in
  let j := slot_of i h (length (fparts s)) in
  let* p := of_option OutOfBounds (nth_error (fparts s) j) in
  let* cs := of_option OutOfBounds (nth_error (fcands s) j) in
  let* _ := of_option OutOfBounds (nth_error (ffov s) j) in
  let* r := hyp_update tab vis d p cs in
  let '(p', cs', fov) := r in
  Val (FA (upd (fparts s) j p') (upd (fcands s) j cs') (upd (ffov s) j fov)).

(** updateMap(i), include/FastSLAM.hpp:434-736.  With nH = 0 the array pi has no element and
    the store to pi[0] is out of bounds. *)
Definition updateMap (res : bool) (i : nat) (s : fast) : outcome fast :=
  let* p := of_option OutOfBounds (nth_error (fparts s) i) in
  let vis := visible 0 (snd p) in
  let n := Nat.max (length vis) nZ in
  let* mr := reduce (cm_new (table vis) n) lim true in
  match getReduced mr with
  | None => UB Uninit
  | Some (Cr, nr, f, _, imap, jmap) =>
    let* h :=
      if nr =? 0 then Val (0, [f])
      else hyps (S maxN) nr f imap jmap (murty_new Cr nr big) 0 [] in
    let '(nH, da) := h in
    if nH =? 0 then UB OutOfBounds
    else
      let* s1 := if 1 <? nH then split res i nH p s else Val s in
      for_ nH (hyp_step (cC mr) vis da i) s1
  end.

(** vector::resize to a larger size; include/FastSLAM.hpp:395-398. *)
Definition grow {A : Type} (n : nat) (x : A) (l : list A) : list A := l ++ repeat x (n - length l).

(** update with nZ measurements up to the resampling, include/FastSLAM.hpp:390-424. *)
Definition update_maps (res : bool) (s : fast) : outcome fast :=
  let N := length (fparts s) in
  let s1 := FA (fparts s) (grow (N * maxN) [] (fcands s)) (grow (N * maxN) 0 (ffov s)) in
  if nZ =? 0 then Val s1 else for_ N (updateMap res) s1.
End Fast.
