(** Model of the map update of the CB-MeMBer filter, RBCBMeMBerFilter::updateMap
    (include/RBCBMeMBerFilter.hpp:514-640), and of the birth tracks of the CB-MeMBer and LMB
    filters over histories of calls (include/RBCBMeMBerFilter.hpp:280-334, 428-510,
    include/RBLMBFilter.hpp:276-332, 428-512).

    Simplifications.  Numbers are rationals.  A weight of a Gaussian that is infinite or NaN in
    the code is None; a probability that is NaN in the code is the outcome DivByZero.  A Gaussian
    is a weight and an element of G; [probDet] is probabilityOfDetection for the pose of the
    particle, [correct] the Kalman correction with measurement z (new Gaussian and innovation
    likelihood, None when it fails), [clutter] the clutter intensity.  The in-place moves that
    drop the tracks of probability zero are in TracksModel.v (C42), the table L and the
    importance weight in RfsModel.v (C18); flags and timers are left out. *)
From Coq Require Import ZArith List Bool Arith QArith Qcanon.
From Verif Require Import Base ListUtil QcLra Loop LmbModel.
Import ListNotations.
Local Open Scope Qc_scope.

Section Member.
Context {G : Type}.
Variable probDet : G -> Qc.
Variable correct : nat -> G -> option (G * Qc).
Variable clutter : nat -> Qc.

(** A track in view: existence probability before the update (getPrevP), Pd and mixture,
    include/RBCBMeMBerFilter.hpp:552-580. *)
Record seen_track := Seen_track { s_p : Qc; s_pd : Qc; s_g : list (Qc * G) }.

(** Pd of a track, include/RBCBMeMBerFilter.hpp:562-570. *)
Definition cb_pd (t : track G) : Qc :=
  fold_left (fun v g => v + fst g * probDet (snd g)) (tG t) 0.

(** One legacy track, include/RBCBMeMBerFilter.hpp:576-579; a new P of NaN (0/0) is DivByZero. *)
Definition legacy (t : track G) : outcome (track G) :=
  if Qc_eq_dec (1 - tP t * cb_pd t) 0 then UB DivByZero
  else Val (Track (tP t * (1 - cb_pd t) / (1 - tP t * cb_pd t)) (tG t)).

(** The loop over the tracks, include/RBCBMeMBerFilter.hpp:559-581: legacy tracks and tracks in
    view. *)
Fixpoint legacies (ts : list (track G)) : outcome (list (track G) * list seen_track) :=
  match ts with
  | [] => Val ([], [])
  | t :: r =>
    let* t' := legacy t in
    let* q := legacies r in
    Val (t' :: fst q,
         if Qcltb 0 (cb_pd t) then Seen_track (tP t) (cb_pd t) (tG t) :: snd q else snd q)
  end.

(** num, denom and the mixture of tracks_[nM + z], include/RBCBMeMBerFilter.hpp:590-622. *)
Record meas := Meas { m_num : Qc; m_den : Qc; m_gs : list (option Qc * G) }.

(** Weight of a new Gaussian, include/RBCBMeMBerFilter.hpp:605-608; p = 1 divides by zero. *)
Definition new_weight (s : seen_track) (lik w : Qc) : option Qc :=
  if Qc_eq_dec (1 - s_p s) 0 then None
  else Some (lik * w * s_pd s * s_p s / (1 - s_p s)).

(** One Gaussian of a track, include/RBCBMeMBerFilter.hpp:598-611; the state is rho and the
    mixture. *)
Definition one_gauss (s : seen_track) (z : nat) (st : Qc * list (option Qc * G)) (g : Qc * G)
  : Qc * list (option Qc * G) :=
  match correct z (snd g) with
  | Some (g', lik) => (fst st + lik * fst g * s_pd s, snd st ++ [(new_weight s lik (fst g), g')])
  | None => st
  end.

(** One track in view, include/RBCBMeMBerFilter.hpp:593-619. *)
Definition one_track (z : nat) (a : meas) (s : seen_track) : meas :=
  let r := fold_left (one_gauss s z) (s_g s) (0, m_gs a) in
  let miss := 1 - s_p s * s_pd s in
  Meas (m_num a + fst r * s_p s * (1 - s_p s) / (miss * miss))
       (m_den a + fst r * s_p s / miss)
       (snd r).

(** All weights are numbers: what the loops of normalizeWeights see,
    include/GaussianMixture.hpp:583-593. *)
Fixpoint finite (gs : list (option Qc * G)) : option (list (Qc * G)) :=
  match gs with
  | [] => Some []
  | (Some w, g) :: r => option_map (cons (w, g)) (finite r)
  | (None, _) :: _ => None
  end.

(** normalizeWeights, include/GaussianMixture.hpp:583-593; None when weights become NaN. *)
Definition norm_weights (gs : list (option Qc * G)) : option (list (Qc * G)) :=
  match finite gs with
  | None => None
  | Some l =>
    let s := fold_left (fun s g => s + fst g) l 0 in
    match l with
    | [] => Some []
    | _ => if Qc_eq_dec s 0 then None else Some (map (fun g => (fst g / s, snd g)) l)
    end
  end.

(** A new track: probability of existence and mixture, include/RBCBMeMBerFilter.hpp:620-622. *)
Record new_track := New { n_P : Qc; n_G : option (list (Qc * G)) }.

(** One measurement, include/RBCBMeMBerFilter.hpp:589-622. *)
Definition one_meas (vs : list seen_track) (z : nat) : outcome new_track :=
  let a := fold_left (one_track z) vs (Meas 0 0 []) in
  let den := m_den a + clutter z in
  if Qc_eq_dec den 0 then UB DivByZero
  else Val (New (m_num a / den) (norm_weights (m_gs a))).

(** The loop over the measurements, include/RBCBMeMBerFilter.hpp:589-624. *)
Fixpoint all_meas (vs : list seen_track) (zs : list nat) : outcome (list new_track) :=
  match zs with
  | [] => Val []
  | z :: r =>
    let* t := one_meas vs z in
    let* l := all_meas vs r in
    Val (t :: l)
  end.

(** The measurements whose track has probability zero, include/RBCBMeMBerFilter.hpp:630-639: the
    copies go to positions already passed, so every test reads the value set above. *)
Fixpoint unused_from (z : nat) (l : list new_track) : list nat :=
  match l with
  | [] => []
  | t :: r => if Qc_eq_dec (n_P t) 0 then z :: unused_from (S z) r else unused_from (S z) r
  end.

(** Legacy tracks, new tracks and unused_measurements_[i] after updateMap,
    include/RBCBMeMBerFilter.hpp:514-640. *)
Record updated := Updated { u_old : list (track G); u_new : list new_track; u_unused : list nat }.

(** updateMap without the importance weight, include/RBCBMeMBerFilter.hpp:514-640; an empty map
    returns at 529-534. *)
Definition update_map (nZ : nat) (ts : list (track G)) : outcome updated :=
  match ts with
  | [] => Val (Updated [] [] (seq 0 nZ))
  | _ =>
    let* q := legacies ts in
    let* l := all_meas (snd q) (seq 0 nZ) in
    Val (Updated (fst q) l (unused_from 0 l))
  end.

(** The new tracks that updateMap leaves: those whose probability is not zero,
    include/RBCBMeMBerFilter.hpp:630-640 (C42). *)
Definition new_kept (u : updated) : list new_track :=
  filter (fun t => if Qc_eq_dec (n_P t) 0 then false else true) (u_new u).

(** update for one particle, include/RBCBMeMBerFilter.hpp:428-435, 462-465: it returns when there
    are no measurements. *)
Definition update (nZ : nat) (ts : list (track G)) : outcome updated :=
  if Nat.eqb nZ 0 then Val (Updated ts [] []) else update_map nZ ts.
End Member.

Section Births.
Variable M : Type.

(** A particle slot: which particle it holds, unused_measurements_ of the slot, birthPe_ of the
    slot (LMB only), and the birth tracks added so far: particle, measurement, probability;
    include/RBCBMeMBerFilter.hpp:204-230, include/RBLMBFilter.hpp:205-225. *)
Record pslot := Pslot { p_id : nat; p_unused : list nat; p_pe : list Qc; p_born : list (nat * M * Qc) }.

(** Filter: stored measurements (include/ParticleFilter.hpp, measurements_) and slots. *)
Record fstate := Fstate { f_z : list M; f_slots : list pslot }.

(** while (unused_measurements_[i].size() > 0) of CB-MeMBer, include/RBCBMeMBerFilter.hpp:310-330,
    from the back; the list is given reversed, [pe] is birthTrackPE_. *)
Fixpoint births_cb (pe : Qc) (zs : list M) (id : nat) (rev_unused : list nat) : outcome (list (nat * M * Qc)) :=
  match rev_unused with
  | [] => Val []
  | k :: r =>
    let* z := of_option OutOfBounds (nth_error zs k) in
    let* l := births_cb pe zs id r in
    Val ((id, z, pe) :: l)
  end.

(** The same loop of LMB, include/RBLMBFilter.hpp:307-328; birthPe_[i].back() of an empty vector
    is undefined. *)
Fixpoint births_lmb (zs : list M) (id : nat) (rev_unused : list nat) (rev_pe : list Qc) : outcome (list (nat * M * Qc)) :=
  match rev_unused with
  | [] => Val []
  | k :: r =>
    let* z := of_option OutOfBounds (nth_error zs k) in
    match rev_pe with
    | [] => UB OutOfBounds
    | pe :: r' =>
      let* l := births_lmb zs id r r' in
      Val ((id, z, pe) :: l)
    end
  end.

(** One slot in addBirthTracks, include/RBCBMeMBerFilter.hpp:308-331,
    include/RBLMBFilter.hpp:305-329. *)
Definition birth_slot (kind : option Qc) (zs : list M) (s : pslot) : outcome pslot :=
  match kind with
  | Some pe =>
    let* l := births_cb pe zs (p_id s) (rev (p_unused s)) in
    Val (Pslot (p_id s) [] (p_pe s) (p_born s ++ l))
  | None =>
    let* l := births_lmb zs (p_id s) (rev (p_unused s)) (rev (p_pe s)) in
    Val (Pslot (p_id s) [] (firstn (length (p_pe s) - length (p_unused s)) (p_pe s)) (p_born s ++ l))
  end.
(** addBirthTracks, include/RBCBMeMBerFilter.hpp:306-334, include/RBLMBFilter.hpp:303-332;
    [kind] is Some birthTrackPE_ for CB-MeMBer and None for LMB. *)
Fixpoint birth_slots (kind : option Qc) (zs : list M) (l : list pslot) : outcome (list pslot) :=
  match l with
  | [] => Val []
  | s :: r =>
    let* s' := birth_slot kind zs s in
    let* r' := birth_slots kind zs r in
    Val (s' :: r')
  end.

(** What the map updates write into the slots: include/RBCBMeMBerFilter.hpp:528-534, 630-639,
    include/RBLMBFilter.hpp:530-538, 842-866.  [f] gives for a particle the numbers it leaves
    unused and their birth probabilities. *)
Definition write_slot (f : nat -> list (nat * Qc)) (s : pslot) : pslot :=
  Pslot (p_id s) (map fst (f (p_id s))) (map snd (f (p_id s))) (p_born s).
(** resample copies particles but neither unused_measurements_ nor birthPe_,
    include/ParticleFilter.hpp:408-500: slot i holds a copy of the particle of slot [par i].
    Particle and map are copied, births included. *)
Definition resample_slot (par : nat -> nat) (l : list pslot) (i : nat) (s : pslot) : pslot :=
  match nth_error l (par i) with
  | Some q => Pslot (p_id q) (p_unused s) (p_pe s) (p_born q)
  | None => s
  end.
(** Support for the loop of include/ParticleFilter.hpp:454-500 over the slots. *)
Fixpoint mapi {A B : Type} (f : nat -> A -> B) (i : nat) (l : list A) : list B :=
  match l with [] => [] | a :: r => f i a :: mapi f (S i) r end.

(** Calls: update with measurements, what each particle leaves unused and the resampling, if any;
    predict; include/RBCBMeMBerFilter.hpp:280, 428. *)
Inductive call :=
| Update (zs : list M) (f : nat -> list (nat * Qc)) (par : option (nat -> nat))
| Predict.

(** update, include/RBCBMeMBerFilter.hpp:428-510, include/RBLMBFilter.hpp:428-512; predict,
    include/RBCBMeMBerFilter.hpp:280-303, include/RBLMBFilter.hpp:276-300. *)
Definition step (kind : option Qc) (s : fstate) (c : call) : outcome fstate :=
  match c with
  | Update zs f par =>
    match zs with
    | [] => Val (Fstate [] (f_slots s))
    | _ =>
      let l := map (write_slot f) (f_slots s) in
      Val (Fstate zs (match par with None => l | Some g => mapi (resample_slot g l) 0 l end))
    end
  | Predict =>
    let* l := birth_slots kind (f_z s) (f_slots s) in
    Val (Fstate (f_z s) l)
  end.
(** A history of calls of the public functions, include/RBCBMeMBerFilter.hpp:280-510. *)
Fixpoint run (kind : option Qc) (s : fstate) (cs : list call) : outcome fstate :=
  match cs with
  | [] => Val s
  | c :: r => let* s' := step kind s c in run kind s' r
  end.

(** After construction: n particles, no measurements, include/RBCBMeMBerFilter.hpp:337-367,
    include/RBLMBFilter.hpp:335-367. *)
Definition start (n : nat) : fstate := Fstate [] (map (fun i => Pslot i [] [] []) (seq 0 n)).
End Births.
