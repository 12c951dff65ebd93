(** Model of GMBernoulliComponent / GMMultiBernoulli
    (include/GMBernoulliComponent.hpp) and of the track compaction in the
    CB-MeMBer map update (include/RBCBMeMBerFilter.hpp:629-640).
    Same conventions as GMModel.v (rational weights, heap of landmarks). *)
From Coq Require Import QArith ZArith List Bool Arith.
From Verif Require Import Base ListUtil GMModel.
Import ListNotations.
Local Open Scope Q_scope.

(** Data members, include/GMBernoulliComponent.hpp:102-103, on top of the
    inherited Gaussian mixture. *)
Record track := Trk { tp : Q; tprev : Q; tg : gm }.

(** Default constructor, include/GMBernoulliComponent.hpp:108-112. *)
Definition track_new : track := Trk 0 0 gm_new.

(** copyTo, include/GMBernoulliComponent.hpp:123-128: returns the new
    destination. *)
Definition track_copyTo (h : heap) (src dst : track) : outcome (heap * track) :=
  let* hg := copyTo h (tg src) (tg dst) in
  Val (fst hg, Trk (tp src) (tprev src) (snd hg)).

(** tracks_[s].copyTo(&tracks_[d]); include/RBCBMeMBerFilter.hpp:635. *)
Definition copy_at (h : heap) (ts : list track) (s d : nat) : outcome (heap * list track) :=
  let* a := of_option OutOfBounds (nth_error ts s) in
  let* b := of_option OutOfBounds (nth_error ts d) in
  let* hb := track_copyTo h a b in
  Val (fst hb, upd ts d (snd hb)).

(** Destruction of the elements a shrinking std::vector::resize drops; include/RBCBMeMBerFilter.hpp:640. *)
Fixpoint destroy_tracks (h : heap) (ts : list track) : outcome heap :=
  match ts with
  | [] => Val h
  | t :: r => let* h' := gm_destroy h (tg t) in destroy_tracks h' r
  end.

(** tracks_.resize(n): drops the tail or appends default tracks; include/RBCBMeMBerFilter.hpp:549 and 640. *)
Definition resize (h : heap) (ts : list track) (n : nat) : outcome (heap * list track) :=
  let* h' := destroy_tracks h (skipn n ts) in
  Val (h', firstn n ts ++ repeat track_new (n - length ts)).

(** Loop of pruneTracks, include/GMBernoulliComponent.hpp:283-288; [i] counts
    down, the loop body runs for index i-1. *)
Fixpoint prune_loop (h : heap) (ts : list track) (t : Q) (i pruned : nat)
  : outcome (heap * list track * nat) :=
  match i with
  | O => Val (h, ts, pruned)
  | S i' =>
      let* x := of_option OutOfBounds (nth_error ts i') in
      if Qltb (tp x) t then
        let* r := copy_at h ts (length ts - 1 - pruned) i' in
        prune_loop (fst r) (snd r) t i' (S pruned)
      else prune_loop h ts t i' pruned
  end.

(** pruneTracks, include/GMBernoulliComponent.hpp:280-291. *)
Definition pruneTracks (h : heap) (ts : list track) (t : Q) : outcome (heap * list track) :=
  let* r := prune_loop h ts t (length ts) 0 in
  let '(h', ts', pruned) := r in
  resize h' ts' (length ts' - pruned).

(** Copy loop of GMMultiBernoulli::copyTo, include/GMBernoulliComponent.hpp:263-264,
    for two different objects. *)
Fixpoint copy_tracks (h : heap) (src dst : list track) : outcome (heap * list track) :=
  match src with
  | [] => Val (h, [])
  | a :: r =>
      match dst with
      | [] => UB OutOfBounds
      | b :: r' =>
          let* hb := track_copyTo h a b in
          let* hr := copy_tracks (fst hb) r r' in
          Val (fst hr, snd hb :: snd hr)
      end
  end.

(** GMMultiBernoulli::copyTo, include/GMBernoulliComponent.hpp:259-265. *)
Definition mb_copyTo (h : heap) (src dst : list track) : outcome (heap * list track) :=
  let* r := resize h dst (length src) in
  copy_tracks (fst r) src (snd r).

(** Compaction loop of the CB-MeMBer update, include/RBCBMeMBerFilter.hpp:631-639;
    the new tracks occupy positions nM .. nM+nZ-1.  [unused] is
    unused_measurements_[i], num_unused is its length. *)
Fixpoint compact_loop (h : heap) (ts : list track) (nM nZ : nat) (zs : list nat) (unused : list nat)
  : outcome (heap * list track * list nat) :=
  match zs with
  | [] => Val (h, ts, unused)
  | z :: r =>
      let* x := of_option OutOfBounds (nth_error ts (nM + z)) in
      if Qeq_bool (tp x) 0 then
        let* c := copy_at h ts (nM + nZ - 1 - length unused) (nM + z) in
        compact_loop (fst c) (snd c) nM nZ r (unused ++ [z])
      else compact_loop h ts nM nZ r unused
  end.

(** include/RBCBMeMBerFilter.hpp:629-640: compaction and the final resize. *)
Definition compact (h : heap) (ts : list track) (nM nZ : nat)
  : outcome (heap * list track * list nat) :=
  let* r := compact_loop h ts nM nZ (seq 0 nZ) [] in
  let '(h', ts', unused) := r in
  let* c := resize h' ts' (nM + nZ - length unused) in
  Val (fst c, snd c, unused).

(** Scan of getMaxGaussian over i < n_, include/GMBernoulliComponent.hpp:157-164. *)
Fixpoint max_scan (g : gm) (is : list nat) (maxW : Q) (maxI : nat) : outcome nat :=
  match is with
  | [] => Val maxI
  | i :: r =>
      let* s := slot_at g i in
      match sp s with
      | Some _ => if Qltb maxW (sw s) then max_scan g r (sw s) i else max_scan g r maxW maxI
      | None => max_scan g r maxW maxI
      end
  end.

(** getMaxGaussian, include/GMBernoulliComponent.hpp:155-168; [None] is a NULL
    landmark pointer. *)
Definition getMaxGaussian (g : gm) : outcome (option nat) :=
  let* i := max_scan g (seq 0 (Z.to_nat (gn g))) 0 0 in
  let* s := slot_at g i in Val (sp s).
