(** Vocabulary for the statements about Gaussian mixtures (C04-C08). *)
From Coq Require Import QArith ZArith List Bool Arith Permutation Sorting.Sorted.
From Verif Require Import Base ListUtil GMModel.
Import ListNotations.
Local Open Scope Q_scope.

(** Landmark pointers held by a list of slots / a mixture. *)
Definition slot_ptr (s : slot) : list nat := match sp s with Some p => [p] | None => [] end.
Definition ptrsl (l : list slot) : list nat := flat_map slot_ptr l.
Definition ptrs (g : gm) : list nat := ptrsl (gl g).

(** Number of slots that hold a landmark. *)
Definition live_count (g : gm) : Z :=
  Z.of_nat (length (filter (fun s => match sp s with Some _ => true | None => false end) (gl g))).

(** Every empty slot has zero weight and previous weight. *)
Definition holes_zero (g : gm) : Prop :=
  forall s, In s (gl g) -> sp s = None -> sw s == 0 /\ swp s == 0.

Definition no_holes (g : gm) : Prop := forall s, In s (gl g) -> sp s <> None.

(** What a user of the class can read: per index the landmark contents (None for
    NULL), the weight and the previous weight. *)
Definition vslot := (option lmk * Q * Q)%type.
Definition cell (h : heap) (s : slot) : option lmk :=
  match sp s with
  | Some p => match nth_error h p with Some c => c | None => None end
  | None => None
  end.
Definition vslot_of (h : heap) (s : slot) : vslot := (cell h s, sw s, swp s).
Definition viewl (h : heap) (l : list slot) : list vslot := map (vslot_of h) l.
Definition view (h : heap) (g : gm) : list vslot := viewl h (gl g).

Definition vlive (v : vslot) : bool := match fst (fst v) with Some _ => true | None => false end.
Definition vw (v : vslot) : Q := snd (fst v).

(** Exact ownership: [P] lists every live heap cell exactly once. *)
Definition owned (h : heap) (P : list nat) : Prop :=
  NoDup P /\ forall p, In p P <-> exists l, nth_error h p = Some (Some l).

(** All pointers reachable from the caller and from the mixtures. *)
Definition optrs (o : option gm) : list nat := match o with Some g => ptrs g | None => [] end.
Definition all_ptrs (w : world) : list nat := caller w ++ flat_map optrs (wo w).

(** Memory is in order: every live landmark has exactly one owner (nothing is
    leaked, shared or dangling) and the counts are right. *)
Definition wf (w : world) : Prop :=
  owned (wh w) (all_ptrs w) /\
  forall i g, nth_error (wo w) i = Some (Some g) -> gn g = live_count g.

(** One well-formed mixture and [F], the pointers owned by anybody else. *)
Definition good (h : heap) (g : gm) (F : list nat) : Prop :=
  owned h (ptrs g ++ F) /\ gn g = live_count g.

(** Landmarks owned by others are not modified. *)
Definition intactF (h h' : heap) (F : list nat) : Prop :=
  forall p, In p F -> nth_error h' p = nth_error h p.

(** Observation of object i. *)
Definition obs (w : world) (i : nat) : option (Z * list vslot * bool) :=
  match nth_error (wo w) i with
  | Some (Some g) => Some (getGaussianCount g, view (wh w) g, gsorted g)
  | _ => None
  end.

(** Ownership contract of addGaussian(p, w, false): the caller hands over a
    landmark it owns (include/GaussianMixture.hpp:86-87). *)
Definition legal (w : world) (o : op) : Prop :=
  match o with OAdd _ p _ false => In p (caller w) | _ => True end.

(** setWeight is applied to live components only. *)
Definition setw_live (w : world) (o : op) : Prop :=
  match o with
  | OSetW i k _ => forall g s, nth_error (wo w) i = Some (Some g) ->
                   nth_error (gl g) k = Some s -> sp s <> None
  | _ => True
  end.

Section Runs.
Variable mdist2 : lmk -> lmk -> Q.
Variable srt : list slot -> list slot.

(** [P] holds at every operation of the history. *)
Fixpoint along (P : world -> op -> Prop) (w : world) (os : list op) : Prop :=
  match os with
  | [] => True
  | o :: r => P w o /\ forall w', step mdist2 srt w o = Val w' -> along P w' r
  end.
End Runs.

(** The operation neither names object j nor writes to one of its landmarks. *)
Definition untouched (w : world) (o : op) (j : nat) : Prop :=
  match o with
  | ONewLmk _ | ONewGM | OCopyGM _ => True
  | OWrite p _ => forall g, nth_error (wo w) j = Some (Some g) -> ~ In p (ptrs g)
  | OCopyTo _ d => d <> j
  | OAddGM d s _ => d <> j /\ s <> j
  | ODelGM i | OAdd i _ _ _ | OMul i _ | ORemove i _ | OSetW i _ _ | OUpdate i _ _ _
  | OMerge i _ _ | OPrune i _ | OSort i | ONorm i => i <> j
  end.

(** What is required of std::sort with weightCompare
    (include/GaussianMixture.hpp:578,594-597). *)
Definition sorter_ok (srt : list slot -> list slot) : Prop :=
  forall l, Permutation (srt l) l /\ StronglySorted (fun a b => sw b <= sw a) (srt l).

(** Total weight, first and second moments of the live components. *)
Fixpoint Qsum (l : list Q) : Q := match l with [] => 0 | x :: r => x + Qsum r end.
Definition total_weight (v : list vslot) : Q := Qsum (map vw (filter vlive v)).
Definition moment1 (k : nat) (v : list vslot) : Q :=
  Qsum (map (fun s => match fst (fst s) with Some l => vw s * lx l k | None => 0 end) v).
Definition moment2 (i j : nat) (v : list vslot) : Q :=
  Qsum (map (fun s => match fst (fst s) with
                      | Some l => vw s * (lS l i j + lx l i * lx l j) | None => 0 end) v).

(** Textbook description of the fusion of two weighted Gaussians with
    inflation f: weighted mean, and weighted covariance plus the spread of the means. *)
Definition is_fusion (f : Q) (a : lmk) (w1 : Q) (b : lmk) (w2 : Q) (m : lmk) : Prop :=
  ltag m = ltag a /\
  (forall k, lx m k == (w1 * lx a k + w2 * lx b k) / (w1 + w2)) /\
  (forall i j, lS m i j ==
     (w1 * lS a i j + w2 * lS b i j) / (w1 + w2) +
     f * (w1 * w2 / ((w1 + w2) * (w1 + w2))) * (lx a i - lx b i) * (lx a j - lx b j)).

Definition mergeable (md : lmk -> lmk -> Q) (t : Q) (v : list vslot) (i j : nat) : Prop :=
  exists a w1 p1 b w2 p2, (i < j)%nat /\
    nth_error v i = Some (Some a, w1, p1) /\ nth_error v j = Some (Some b, w2, p2) /\
    (md a b <= t * t \/ md b a <= t * t) /\ ~ w1 + w2 == 0.

(** One merge of components i < j: i becomes the fusion, j disappears. *)
Definition pair_merge (md : lmk -> lmk -> Q) (t f : Q) (v : list vslot) (ij : nat * nat)
           (v' : list vslot) : Prop :=
  let '(i, j) := ij in
  mergeable md t v i j /\
  exists a w1 p1 b w2 p2 m,
    nth_error v i = Some (Some a, w1, p1) /\ nth_error v j = Some (Some b, w2, p2) /\
    is_fusion f a w1 b w2 m /\
    v' = upd (upd v i (Some m, w1 + w2, 0)) j (None, 0, 0).

Inductive merges (md : lmk -> lmk -> Q) (t f : Q) : list vslot -> list (nat * nat) -> list vslot -> Prop :=
| M_nil : forall v, merges md t f v [] v
| M_cons : forall v ij v1 tr v2, pair_merge md t f v ij v1 -> merges md t f v1 tr v2 ->
                                 merges md t f v (ij :: tr) v2.

(** Object i exists and has not been destroyed. *)
Definition alive (w : world) (i : nat) : Prop := exists g, nth_error (wo w) i = Some (Some g).
Definition the (P : gm -> Prop) (w : world) (i : nat) : Prop :=
  exists g, nth_error (wo w) i = Some (Some g) /\ P g.

(** Exact precondition under which an operation has defined behaviour. *)
Definition safe (w : world) (o : op) : Prop :=
  match o with
  | ONewLmk _ | ONewGM => True
  | OWrite p _ => In p (all_ptrs w)
  | OCopyGM s => the no_holes w s
  | ODelGM i | OMul i _ | OMerge i _ _ | OPrune i _ | OSort i => alive w i
  | OCopyTo s d => alive w d /\ the (fun g => s = d -> ptrs g = []) w s
  | OAdd i p _ am => alive w i /\ (am = true -> In p (all_ptrs w))
  | OAddGM d s _ => alive w d /\ alive w s /\ d <> s
  | ORemove i k | OSetW i k _ => the (fun g => k < length (gl g))%nat w i
  | OUpdate i k _ _ => the (fun g => k <> length (gl g)) w i
  | ONorm i => the (fun g => gn g = 0%Z \/
                     ~ Qsum (map sw (firstn (Z.to_nat (gn g)) (gl g))) == 0) w i
  end.

(** The caller repeats merge(t, f) k times. *)
Fixpoint merge_repeat (md : lmk -> lmk -> Q) (k : nat) (h : heap) (g : gm) (t f : Q) : outcome (heap * gm) :=
  match k with
  | O => Val (h, g)
  | S k' => let* x := merge md h g t f in merge_repeat md k' (fst (fst x)) (snd (fst x)) t f
  end.
