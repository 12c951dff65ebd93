(** Model of the map update of the labelled multi-Bernoulli filter: RBLMBFilter::updateMap
    (include/RBLMBFilter.hpp:516-884).

    Simplifications.  Numbers are rationals and products are formed directly: the code adds
    logarithms and takes exp, with -1000 for log 0 (its exp is 0 in double precision); a division
    by zero, NaN or infinity in the code, is the outcome DivByZero.  A Gaussian is a weight and
    an element of G; probDet is probabilityOfDetection for the pose of the particle, [correct]
    the Kalman correction with measurement z (new Gaussian and innovation likelihood, None when
    it fails), clutter the clutter intensity.  The flags isClose, prevP_ and the timers are left
    out.  The table L of the code is a function; partitioning is that of RfsModel: the integer
    model of CostMatrixGeneral on the table of zeros and ones, entries taken from L (C16).  The
    results of Murty's algorithm are a function [kbest] of the extended matrix. *)
From Coq Require Import ZArith List Bool Arith QArith Qcanon.
From Verif Require Import Base ListUtil QcLra Loop PermanentSpec PartitionModel LexModel RfsModel.
Import ListNotations.
Local Open Scope nat_scope.

Section Lmb.
Context {G : Type}.
Variable probDet : G -> Qc.
Variable correct : nat -> G -> option (G * Qc).
Variable clutter : nat -> Qc.
(** config.MeasurementLikelihoodThreshold_, birthTrackMaxPE_, birthTrackMinPE_, expectedBirths_. *)
Variables thr maxPE minPE expected : Qc.
Variable nZ : nat.
Variable kbest : nat -> nat -> (nat -> nat -> Qc) -> list (list nat).

(** A track: probability of existence and Gaussian mixture, include/GMBernoulliComponent.hpp:50-113. *)
Record track := Track { tP : Qc; tG : list (Qc * G) }.

(** Pd of a track, include/RBLMBFilter.hpp:566-575. *)
Definition track_pd (t : track) : Qc :=
  fold_left (fun v g => (v + fst g * probDet (snd g))%Qc) (tG t) 0%Qc.

(** The tracks in the field of view: tracksInFovIdx, tracksInFovPd, tracksInFovPe,
    include/RBLMBFilter.hpp:562-587. *)
Record view := View { vI : nat; vT : track; vPd : Qc; vPe : Qc }.
(** Part of the above, include/RBLMBFilter.hpp:562-587. *)
Fixpoint in_view (m : nat) (ts : list track) : list view :=
  match ts with
  | [] => []
  | t :: r => if Qcltb 0 (track_pd t) then View m t (track_pd t) (tP t) :: in_view (S m) r else in_view (S m) r
  end.

(** mixtureMatrix[m][z], include/RBLMBFilter.hpp:623-638. *)
Definition mixture (v : view) (z : nat) : list (Qc * G) :=
  flat_map (fun g => match correct z (snd g) with
                     | Some (g', lik) => [((lik * fst g * vPd v / clutter z)%Qc, g')]
                     | None => []
                     end) (tG (vT v)).

(** L[m][z], include/RBLMBFilter.hpp:620-648. *)
Definition entry (v : view) (z : nat) : Qc :=
  let gamma := (fold_left (fun s g => (s + fst g)%Qc) (mixture v z) 0 * vPe v)%Qc in
  if Qcltb thr gamma then gamma else 0%Qc.

(** Does the loop 615-651 divide by zero? *)
Definition no_clutter (vs : list view) : bool :=
  existsb (fun z => if Qc_eq_dec (clutter z) 0%Qc
                    then existsb (fun v => existsb (fun g => match correct z (snd g) with Some _ => true | None => false end) (tG (vT v))) vs
                    else false) (seq 0 nZ).

Section View.
Variable vs : list view.
(** The i-th track in view; the indices in a partition are below length vs (C15). *)
Definition at_ (i : nat) : view := nth i vs (View 0 (Track 0%Qc []) 0%Qc 0%Qc).
(** Part of the above, include/RBLMBFilter.hpp:620-648. *)
Definition lmbL (i z : nat) : Qc := if i <? length vs then entry (at_ i) z else 0%Qc.
(** 1 - tracksInFovPd[i] * tracksInFovPe[i] is 1 - missed_pd i; include/RBLMBFilter.hpp:685 and 721. *)
Definition missed_pd (i : nat) : Qc := (vPd (at_ i) * vPe (at_ i))%Qc.

(** partition_likelihood, tracksInFovUpdatedPe and mixtureWeight, include/RBLMBFilter.hpp:588,
    605-612, 664. *)
Record acc := Acc { pl : Qc; upe : nat -> Qc; mw : nat -> nat -> Qc }.
(** Part of the above, include/RBLMBFilter.hpp:588. *)
Definition add1 (f : nat -> Qc) (i : nat) (x : Qc) (k : nat) : Qc := if k =? i then (f k + x)%Qc else f k.
(** Part of the above, include/RBLMBFilter.hpp:588. *)
Definition add2 (f : nat -> nat -> Qc) (i j : nat) (x : Qc) (k l : nat) : Qc :=
  if (k =? i) && (l =? j) then (f k l + x)%Qc else f k l.

(** One row of one hypothesis of weight w, include/RBLMBFilter.hpp:749-763 and 797-811. *)
Definition account_row (il jl o : list nat) (w : Qc) (r : nat) (a : acc) : outcome acc :=
  let i := nth r il 0 in
  if nth r o 0 <? length jl then
    Val (Acc (pl a) (add1 (upe a) i w) (add2 (mw a) i (nth (nth r o 0) jl 0) w))
  else
    if Qc_eq_dec (1 - missed_pd i) 0%Qc then UB DivByZero
    else
      let x := (w * vPe (at_ i) * (1 - vPd (at_ i)) / (1 - missed_pd i))%Qc in
      Val (Acc (pl a) (add1 (upe a) i x) (add2 (mw a) i nZ x)).
(** One hypothesis, include/RBLMBFilter.hpp:747-763 and 795-811. *)
Definition account (il jl o : list nat) (w : Qc) (a : acc) : outcome acc :=
  for_ (length il) (account_row il jl o w) (Acc (pl a + w)%Qc (upe a) (mw a)).

(** Weight of one permutation, include/RBLMBFilter.hpp:785-793. *)
Definition order_weight (il jl o : list nat) : Qc :=
  fold_left (fun v a => if nth a o 0 <? length jl
               then (v * lmbL (nth a il 0%nat) (nth (nth a o 0%nat) jl 0%nat))%Qc
               else (v * (1 - missed_pd (nth a il 0%nat)))%Qc) (seq 0 (length il)) 1%Qc.

(** The loop over the permutations, include/RBLMBFilter.hpp:781-816. *)
Fixpoint lex_account (fuel : nat) (il jl : list nat) (s : lex) (a : acc) : outcome acc :=
  match fuel with
  | 0 => OutOfFuel
  | S f =>
    let* r := next s in
    let '(s', n, o) := r in
    if n =? 0 then Val a
    else
      if length o =? length il + length jl then
        let* a' := account il jl o (order_weight il jl o) a in
        lex_account f il jl s' a'
      else UB OutOfBounds
  end.

(** The loop over the results of Murty's algorithm, include/RBLMBFilter.hpp:743-768. *)
Fixpoint murty_account (k : nat) (il jl : list nat) (E : nat -> nat -> Qc) (outs : list (list nat)) (a : acc) : outcome acc :=
  match k, outs with
  | S k', o :: r =>
    let w := product_along E 0 o in
    if Qc_eq_dec w 0%Qc then Val a
    else
      let* a' := account il jl o w a in
      murty_account k' il jl E r a'
  | _, _ => Val a
  end.

(** The matrix of Murty's algorithm, include/RBLMBFilter.hpp:702-739: detections, misses on the
    diagonal, clutter measurements with weight one. *)
Definition lmb_extended (il jl : list nat) : nat -> nat -> Qc :=
  extended lmbL missed_pd (fun _ => 1%Qc) il jl.

(** multiplyWeights and addGM, include/GaussianMixture.hpp:317-336. *)
Definition multiply (w : Qc) (gs : list (Qc * G)) : list (Qc * G) := map (fun g => ((fst g * w)%Qc, snd g)) gs.
(** normalizeWeights, include/GaussianMixture.hpp:583-593. *)
Definition normalize (gs : list (Qc * G)) : outcome (list (Qc * G)) :=
  let s := fold_left (fun s g => (s + fst g)%Qc) gs 0%Qc in
  match gs with
  | [] => Val []
  | _ => if Qc_eq_dec s 0%Qc then UB DivByZero else Val (map (fun g => ((fst g / s)%Qc, snd g)) gs)
  end.

(** The new track of row r of a partition, include/RBLMBFilter.hpp:818-828. *)
Definition finish_row (il jl : list nat) (r : nat) (st : acc * list track) : outcome (acc * list track) :=
  let '(a, ts) := st in
  let i := nth r il 0 in
  if Qc_eq_dec (pl a) 0%Qc then UB DivByZero
  else
    let p := (upe a i / pl a)%Qc in
    let* t := of_option OutOfBounds (nth_error ts (vI (at_ i))) in
    let gs := multiply (mw a i nZ) (tG t) ++
              flat_map (fun c => multiply (mw a i c) (mixture (at_ i) c)) jl in
    let* gs' := normalize gs in
    Val (Acc (pl a) (fun k => if k =? i then p else upe a k) (mw a), upd ts (vI (at_ i)) (Track p gs')).

(** Row r of a partition without detections, include/RBLMBFilter.hpp:688-695. *)
Definition zero_row (il : list nat) (r : nat) (st : acc * list track) : outcome (acc * list track) :=
  let '(a, ts) := st in
  let v := at_ (nth r il 0) in
  if Qc_eq_dec (1 - missed_pd (nth r il 0)) 0%Qc then UB DivByZero
  else
    let* t := of_option OutOfBounds (nth_error ts (vI v)) in
    Val (a, upd ts (vI v) (Track (vPe v * (1 - vPd v) / (1 - missed_pd (nth r il 0%nat)))%Qc (tG t))).

(** One partition, include/RBLMBFilter.hpp:662-831. *)
Definition lmb_block (murty flag : bool) (il jl : list nat) (st : acc * list track) : outcome (acc * list track) :=
  let a := fst st in
  if negb flag || (length jl =? 0) then
    for_ (length il) (zero_row il)
      (Acc (fold_left (fun v i => (v * (1 - missed_pd i))%Qc) il 1%Qc) (upe a) (mw a), snd st)
  else
    let a0 := Acc 0%Qc (upe a) (mw a) in
    let* a1 := (if murty
                then murty_account 200 il jl (lmb_extended il jl) (kbest (length il) (length jl) (lmb_extended il jl)) a0
                else lex_account (S (S (length jl) ^ length il)) il jl (lex_new (length il) (length jl) true) a0) in
    for_ (length il) (finish_row il jl) (a1, snd st).

(** The loop over the partitions, include/RBLMBFilter.hpp:657-833. *)
Fixpoint lmb_blocks (g : cgen) (ps : list nat) (st : acc * list track) (l : Qc) : outcome (acc * list track * Qc) :=
  match ps with
  | [] => Val (st, l)
  | p :: r =>
    let* sz := getPartitionSize g p in
    let '(nR, nC, flag) := sz in
    let useMurty := negb ((nR + nC <=? 8) || negb flag) in
    let* got := getPartition g p useMurty in
    let* st' := lmb_block useMurty (gflag (snd got)) (grows (snd got)) (gcols (snd got)) st in
    lmb_blocks (fst got) r st' (l * pl (fst st'))%Qc
  end.

(** associationP[z], include/RBLMBFilter.hpp:846-852. *)
Definition association_p (a : acc) (z : nat) : Qc :=
  fold_left (fun s i => (s + mw a i z)%Qc) (seq 0 (length vs)) 0%Qc.
(** std::min, include/RBLMBFilter.hpp:856. *)
Definition qmin2 (x y : Qc) : Qc := if Qcltb y x then y else x.
(** unused_measurements_ and birthPe_, include/RBLMBFilter.hpp:855-864. *)
Definition births (a : acc) : list (nat * Qc) :=
  flat_map (fun z => let p := qmin2 maxPE (1 - association_p a z) in
                     if Qcltb minPE p then [(z, p)] else []) (seq 0 nZ).
End View.

(** What updateMap leaves behind: tracks, candidates for birth with their probability, and the
    factor by which the weight of the particle is multiplied, include/RBLMBFilter.hpp:866-882. *)
Record lmb_out := LmbOut { lTracks : list track; lBirths : list (nat * Qc); lFactor : Qc }.

(** updateMap, include/RBLMBFilter.hpp:516-884; [cc], [ncc] is the result of
    boost::connected_components.  At least one measurement (include/RBLMBFilter.hpp:430-433). *)
Definition lmb_update (cc : nat -> nat) (ncc : nat) (ts : list track) : outcome lmb_out :=
  match ts with
  | [] => Val (LmbOut [] (map (fun z => (z, qmin2 maxPE (expected / QcN nZ))) (seq 0 nZ)) 1%Qc)
  | _ =>
    let vs := in_view 0 ts in
    if no_clutter vs then UB DivByZero
    else
      let* r := partition cc ncc (cg_new (sig (lmbL vs)) (length vs) nZ 0%Z) in
      let* s := lmb_blocks vs (fst r) (seq 0 (snd r)) (Acc 0%Qc (fun _ => 0%Qc) (fun _ _ => 0%Qc), ts) 1%Qc in
      Val (LmbOut (snd (fst s)) (births vs (fst (fst s))) (snd s))
  end.
End Lmb.
Arguments track : clear implicits.
Arguments view : clear implicits.
Arguments lmb_out : clear implicits.
