(** Vocabulary for the statements about track lists (C09, C42, C53). *)
From Coq Require Import QArith ZArith List Bool Arith Permutation.
From Verif Require Import Base ListUtil GMModel GMSpec TracksModel.
Import ListNotations.
Local Open Scope Q_scope.

(** What a user can read of a track: existence probability, previous one, and
    the mixture (count, components, sorted flag). *)
Definition tview := (Q * Q * (Z * list vslot * bool))%type.
Definition tview_of (h : heap) (t : track) : tview :=
  (tp t, tprev t, (gn (tg t), view h (tg t), gsorted (tg t))).
Definition tviews (h : heap) (ts : list track) : list tview := map (tview_of h) ts.
Definition tvP (v : tview) : Q := fst (fst v).

Definition tptrs (t : track) : list nat := ptrs (tg t).

(** A well-formed list of tracks: every live landmark of the heap is owned by
    exactly one track or by somebody else ([F]), and the counts are right. *)
Definition tgood (h : heap) (ts : list track) (F : list nat) : Prop :=
  owned h (flat_map tptrs ts ++ F) /\ forall t, In t ts -> gn (tg t) = live_count (tg t).

(** Landmarks of other owners are not modified. *)
Definition intact (h h' : heap) (F : list nat) : Prop := intactF h h' F.

(** The track holds at least one Gaussian. *)
Definition holds_gaussian (v : tview) : Prop := fst (fst (snd v)) <> 0%Z.

(** C09: track i and all tracks after it are to be pruned, and track i holds a
    Gaussian. *)
Definition doomed_tail (t : Q) (V : list tview) : Prop :=
  exists A x B, V = A ++ x :: B /\ holds_gaussian x /\
    tvP x < t /\ forall y, In y B -> tvP y < t.

(** C42: indices z with existence probability zero, in increasing order. *)
Definition zeroP (v : tview) : bool := Qeq_bool (tvP v) 0.
Fixpoint zeros_from (z : nat) (V : list tview) : list nat :=
  match V with
  | [] => []
  | v :: r => if zeroP v then z :: zeros_from (S z) r else zeros_from (S z) r
  end.
Definition zeros (V : list tview) : list nat := zeros_from 0 V.

Definition zcount (V : list tview) : nat := length (filter zeroP V).

(** Every zero-probability entry of [X] is replaced, in order, by the next
    element of [src]. *)
Fixpoint fill (X src : list tview) : list tview :=
  match X with
  | [] => []
  | x :: r =>
      if zeroP x then match src with s :: src' => s :: fill r src' | [] => x :: fill r [] end
      else x :: fill r src
  end.

(** The compaction copies some track with Gaussians onto itself: [W] are the new
    tracks; track z is unused and the one it would be replaced by is itself. *)
Definition self_fill (W : list tview) : Prop :=
  exists A x B, W = A ++ x :: B /\ zeroP x = true /\ holds_gaussian x /\ length B = zcount A.

(** In the last u = zcount W new tracks, all unused ones come first. *)
Definition tidy (W : list tview) : Prop :=
  exists Z P, skipn (length W - zcount W) W = Z ++ P /\
    (forall v, In v Z -> zeroP v = true) /\ (forall v, In v P -> zeroP v = false).
