(** Model of include/GaussianMixture.hpp (class GaussianMixture).

    Simplifications, valid for the whole file:
    - weights, means and covariances are rationals (no rounding, no NaN);
    - a mean is a function from coordinate to Q and a covariance a function of
      two coordinates, so the vector dimension is not fixed;
    - the heap is a list of cells; a deleted cell is never handed out again;
    - mahalanobisDist2 (include/RandomVec.hpp:428-452) is a parameter [mdist2];
      its internal caching is the subject of RandVecModel.v;
    - std::sort is a parameter [srt]; what is needed of it is stated as a
      hypothesis of the theorems (GMSpec.sorter_ok). *)
From Coq Require Import QArith ZArith List Bool Arith.
From Verif Require Import Base ListUtil.
Import ListNotations.
Local Open Scope Q_scope.

(** A Landmark object (include/Landmark.hpp, include/RandomVec.hpp:54-): mean,
    covariance, and one field standing for all other data (time, descriptor). *)
Record lmk := Lmk { lx : nat -> Q; lS : nat -> nat -> Q; ltag : nat }.

(** struct Gaussian, include/GaussianMixture.hpp:60-64; [None] is NULL. *)
Record slot := Slot { sp : option nat; sw : Q; swp : Q }.

(** Data members, include/GaussianMixture.hpp:213-215. *)
Record gm := GM { gn : Z; gl : list slot; gsorted : bool }.

(** Memory: cell p is [Some l] while the Landmark object at p is alive;
    the objects behind include/GaussianMixture.hpp:60-64. *)
Definition heap := list (option lmk).

(** new Landmark; *p = l  (e.g. include/GaussianMixture.hpp:263-264) *)
Definition alloc (h : heap) (l : lmk) : heap * nat := (h ++ [Some l], length h).

(** read of *p; as in include/GaussianMixture.hpp:264. *)
Definition deref (h : heap) (p : nat) : outcome lmk :=
  match nth_error h p with
  | Some (Some l) => Val l
  | Some None => UB UseAfterFree
  | None => UB OutOfBounds
  end.

(** assignment *p = l; as in include/GaussianMixture.hpp:264. *)
Definition store (h : heap) (p : nat) (l : lmk) : outcome heap :=
  let* _ := deref h p in Val (upd h p (Some l)).

(** delete p; as in include/GaussianMixture.hpp:282 and 367. *)
Definition free (h : heap) (p : nat) : outcome heap :=
  match nth_error h p with
  | Some (Some _) => Val (upd h p None)
  | Some None => UB DoubleFree
  | None => UB OutOfBounds
  end.

(** std::vector operator[] on gList_; out of range is undefined; as in include/GaussianMixture.hpp:363-373. *)
Definition slot_at (g : gm) (i : nat) : outcome slot := of_option OutOfBounds (nth_error (gl g) i).

(** Default constructor, include/GaussianMixture.hpp:251-255. *)
Definition gm_new : gm := GM 0 [] false.

(** removeGaussian, include/GaussianMixture.hpp:362-374 (return value is n_). *)
Definition removeGaussian (h : heap) (g : gm) (idx : nat) : outcome (heap * gm) :=
  let* s := slot_at g idx in
  match sp s with
  | None => Val (h, GM (gn g) (gl g) false)
  | Some p =>
      let* h' := free h p in
      Val (h', GM (gn g - 1) (upd (gl g) idx (Slot None 0 0)) false)
  end.

(** for(i ...) removeGaussian(i), used by the destructor and by prune; include/GaussianMixture.hpp:269-275. *)
Fixpoint remove_list (h : heap) (g : gm) (is : list nat) : outcome (heap * gm) :=
  match is with
  | [] => Val (h, g)
  | i :: r => let* hg := removeGaussian h g i in remove_list (fst hg) (snd hg) r
  end.

(** Destructor, include/GaussianMixture.hpp:269-276. *)
Definition gm_destroy (h : heap) (g : gm) : outcome heap :=
  omap fst (remove_list h g (seq 0 (length (gl g)))).

(** The copy loop of the copy constructor, include/GaussianMixture.hpp:261-266:
    every slot is dereferenced, also an empty one. *)
Fixpoint copy_slots_all (h : heap) (l : list slot) : outcome (heap * list slot) :=
  match l with
  | [] => Val (h, [])
  | s :: r =>
      match sp s with
      | None => UB NullDeref
      | Some p =>
          let* x := deref h p in
          let '(h1, q) := alloc h x in
          let* hr := copy_slots_all h1 r in
          Val (fst hr, Slot (Some q) (sw s) (swp s) :: snd hr)
      end
  end.

(** Copy constructor, include/GaussianMixture.hpp:257-267. *)
Definition gm_copy_ctor (h : heap) (g : gm) : outcome (heap * gm) :=
  let* hl := copy_slots_all h (gl g) in
  Val (fst hl, GM (gn g) (snd hl) (gsorted g)).

(** Deleting the landmarks of the destination, include/GaussianMixture.hpp:280-284. *)
Fixpoint free_slots (h : heap) (l : list slot) : outcome heap :=
  match l with
  | [] => Val h
  | s :: r =>
      match sp s with
      | None => free_slots h r
      | Some p => let* h' := free h p in free_slots h' r
      end
  end.

(** The copy loop of copyTo, include/GaussianMixture.hpp:287-293. *)
Fixpoint copy_slots (h : heap) (l : list slot) : outcome (heap * list slot) :=
  match l with
  | [] => Val (h, [])
  | s :: r =>
      match sp s with
      | None => let* hr := copy_slots h r in Val (fst hr, s :: snd hr)
      | Some p =>
          let* x := deref h p in
          let '(h1, q) := alloc h x in
          let* hr := copy_slots h1 r in
          Val (fst hr, Slot (Some q) (sw s) (swp s) :: snd hr)
      end
  end.

(** copyTo, include/GaussianMixture.hpp:278-295, source [src], destination
    [dst].  Returns the new destination.  Called with the same object as source
    and destination ([src] = [dst]) this is also what the code does, since
    other->gList_ = gList_ is then a self assignment. *)
Definition copyTo (h : heap) (src dst : gm) : outcome (heap * gm) :=
  let* h1 := free_slots h (gl dst) in
  let* hl := copy_slots h1 (gl src) in
  Val (fst hl, GM (gn src) (snd hl) (gsorted src)).

(** addGaussian(p, w, allocateMem), include/GaussianMixture.hpp:297-314. *)
Definition addGaussian (h : heap) (g : gm) (p : nat) (w : Q) (allocateMem : bool)
  : outcome (heap * gm) :=
  if allocateMem then
    let* x := deref h p in
    let '(h1, q) := alloc h x in
    Val (h1, GM (gn g + 1) (gl g ++ [Slot (Some q) w 0]) false)
  else Val (h, GM (gn g + 1) (gl g ++ [Slot (Some p) w 0]) false).

(** addGM(other, w), include/GaussianMixture.hpp:316-330, for other != *this.
    Returns (this, other). *)
Definition addGM (g other : gm) (w : Q) : gm * gm :=
  (GM (gn g + gn other)
      (gl g ++ map (fun s => Slot (sp s) (sw s * w) (swp s)) (gl other)) false,
   GM 0 [] (gsorted other)).

(** multiplyWeights, include/GaussianMixture.hpp:331-336. *)
Definition multiplyWeights (g : gm) (w : Q) : gm :=
  GM (gn g) (map (fun s => Slot (sp s) (sw s * w) (swp s)) (gl g)) (gsorted g).

(** getGaussianCount, include/GaussianMixture.hpp:377-380. *)
Definition getGaussianCount (g : gm) : Z := gn g.

(** Summation loop i < n_ shared by getWeightSum (include/GaussianMixture.hpp:383-389)
    and normalizeWeights (:584-587). *)
Fixpoint sum_idx (g : gm) (acc : Q) (is : list nat) : outcome Q :=
  match is with
  | [] => Val acc
  | i :: r => let* s := slot_at g i in sum_idx g (acc + sw s) r
  end.

(** getWeightSum, include/GaussianMixture.hpp:382-389. *)
Definition getWeightSum (g : gm) : outcome Q := sum_idx g 0 (seq 0 (Z.to_nat (gn g))).

(** setWeight, include/GaussianMixture.hpp:391-396. *)
Definition setWeight (g : gm) (idx : nat) (w : Q) : outcome gm :=
  let* s := slot_at g idx in
  Val (GM (gn g) (upd (gl g) idx (Slot (sp s) w (sw s))) false).

(** getWeight / getGaussian, include/GaussianMixture.hpp:398-424. *)
Definition getGaussian (g : gm) (idx : nat) : outcome (option nat * Q * Q) :=
  let* s := slot_at g idx in Val (sp s, sw s, swp s).

(** Comparison of doubles, as in include/GaussianMixture.hpp:434. *)
Definition Qltb (a b : Q) : bool := negb (Qle_bool b a).

(** updateGaussian, include/GaussianMixture.hpp:427-444, including the test
    idx > gList_.size() as written. *)
Definition updateGaussian (h : heap) (g : gm) (idx : nat) (lm : lmk) (w : Q)
  : outcome (heap * gm * bool) :=
  let g0 := GM (gn g) (gl g) false in
  if Nat.ltb (length (gl g)) idx then Val (h, g0, false) else
  let* s := slot_at g idx in
  match sp s with
  | None => Val (h, g0, false)
  | Some p =>
      let w' := if Qltb w 0 then sw s else w in
      let* h' := store h p lm in
      Val (h', GM (gn g) (upd (gl g) idx (Slot (Some p) w' (sw s))) false, true)
  end.

Section Merge.
(** Squared Mahalanobis distance x.mahalanobisDist2(y). *)
Variable mdist2 : lmk -> lmk -> Q.

(** Merged mean and covariance, include/GaussianMixture.hpp:507-512, written
    over the first landmark by set() (:519). *)
Definition merged (a b : lmk) (w1 w2 f : Q) : lmk :=
  let wm := w1 + w2 in
  let xm := fun i => (lx a i * w1 + lx b i * w2) / wm in
  let d1 := fun i => xm i - lx a i in
  let d2 := fun i => xm i - lx b i in
  Lmk xm
      (fun i j => (w1 * (lS a i j + f * d1 i * d1 j) + w2 * (lS b i j + f * d2 i * d2 j)) / wm)
      (ltag a).

(** merge(idx1, idx2, t, f), include/GaussianMixture.hpp:471-527. *)
Definition merge2 (h : heap) (g : gm) (i1 i2 : nat) (t f : Q) : outcome (heap * gm * bool) :=
  let g0 := GM (gn g) (gl g) false in
  let* s1 := slot_at g i1 in
  match sp s1 with
  | None => Val (h, g0, false)
  | Some p1 =>
    let* s2 := slot_at g i2 in
    match sp s2 with
    | None => Val (h, g0, false)
    | Some p2 =>
      let* a := deref h p1 in
      let* b := deref h p2 in
      if Qltb (t * t) (mdist2 a b) && Qltb (t * t) (mdist2 b a) then Val (h, g0, false)
      else if Qeq_bool (sw s1 + sw s2) 0 then Val (h, g0, false)
      else
        let* h1 := store h p1 (merged a b (sw s1) (sw s2) f) in
        let g1 := GM (gn g) (upd (gl g) i1 (Slot (Some p1) (sw s1 + sw s2) 0)) false in
        let* hg := removeGaussian h1 g1 i2 in
        Val (fst hg, snd hg, true)
    end
  end.

(** Inner loop over j, include/GaussianMixture.hpp:458-464. *)
Fixpoint merge_inner (h : heap) (g : gm) (i : nat) (js : list nat) (t f : Q) (cnt : nat)
  : outcome (heap * gm * nat) :=
  match js with
  | [] => Val (h, g, cnt)
  | j :: r =>
      let* x := merge2 h g i j t f in
      let '(h', g', b) := x in
      merge_inner h' g' i r t f (if b : bool then S cnt else cnt)
  end.

(** Outer loop over i, include/GaussianMixture.hpp:453-466. *)
Fixpoint merge_outer (h : heap) (g : gm) (n : nat) (is : list nat) (t f : Q) (cnt : nat)
  : outcome (heap * gm * nat) :=
  match is with
  | [] => Val (h, g, cnt)
  | i :: r =>
      let* s := slot_at g i in
      match sp s with
      | None => merge_outer h g n r t f cnt
      | Some _ =>
          let* x := merge_inner h g i (seq (S i) (n - S i)) t f cnt in
          let '(h', g', c') := x in
          merge_outer h' g' n r t f c'
      end
  end.

(** merge(t, f), include/GaussianMixture.hpp:446-468; returns the number of
    merges. *)
Definition merge (h : heap) (g : gm) (t f : Q) : outcome (heap * gm * nat) :=
  let n := length (gl g) in
  merge_outer h (GM (gn g) (gl g) false) n (seq 0 n) t f 0.

End Merge.

Section Sort.
(** std::sort(gList_.begin(), gList_.end(), weightCompare). *)
Variable srt : list slot -> list slot.

(** sortByWeight, include/GaussianMixture.hpp:575-581. *)
Definition sortByWeight (g : gm) : gm :=
  if gsorted g then g else GM (gn g) (srt (gl g)) true.

(** Binary search loop of prune, include/GaussianMixture.hpp:548-557.  The loop
    has no bound in the code; running out of [fuel] is a separate outcome. *)
Fixpoint bsearch (fuel : nat) (l : list slot) (t : Q) (mn mx idx idx_old : nat) : outcome nat :=
  if Nat.eqb idx idx_old then Val idx else
  match fuel with
  | O => OutOfFuel
  | S k =>
      let* s := of_option OutOfBounds (nth_error l idx) in
      let '(mn', mx') := if Qle_bool (sw s) t then (mn, idx) else (idx, mx) in
      bsearch k l t mn' mx' (Nat.div (mx' + mn') 2) idx
  end.

(** Linear scan while w >= t, include/GaussianMixture.hpp:558-563; [l] is the
    part of gList_ from idx on. *)
Fixpoint scan (l : list slot) (t : Q) (idx : nat) : nat :=
  match l with
  | [] => idx
  | s :: r => if Qle_bool t (sw s) then scan r t (S idx) else idx
  end.

(** prune(t), include/GaussianMixture.hpp:529-573; returns the number removed. *)
Definition prune (h : heap) (g : gm) (t : Q) : outcome (heap * gm * nat) :=
  let g0 := GM (gn g) (gl g) false in
  match gl g with
  | [] => Val (h, g0, 0%nat)
  | _ =>
      let g1 := sortByWeight g0 in
      let n := length (gl g1) in
      let mx := (n - 1)%nat in
      let idx := Nat.div (mx + 0) 2 in
      let* i0 := bsearch (S n) (gl g1) t 0 mx idx (S idx) in
      let k := scan (skipn i0 (gl g1)) t i0 in
      let* hg := remove_list h g1 (seq k (n - k)) in
      Val (fst hg, GM (gn (snd hg)) (firstn k (gl (snd hg))) (gsorted (snd hg)), (n - k)%nat)
  end.

End Sort.

(** The division loop of normalizeWeights, include/GaussianMixture.hpp:588-590.
    A zero sum gives NaN/inf in the code; here it is the outcome DivByZero. *)
Fixpoint norm_idx (l : list slot) (sum : Q) (is : list nat) : outcome (list slot) :=
  match is with
  | [] => Val l
  | i :: r =>
      let* s := of_option OutOfBounds (nth_error l i) in
      if Qeq_bool sum 0 then UB DivByZero
      else norm_idx (upd l i (Slot (sp s) (sw s / sum) (swp s))) sum r
  end.

(** normalizeWeights, include/GaussianMixture.hpp:582-593. *)
Definition normalizeWeights (g : gm) : outcome gm :=
  let idxs := seq 0 (Z.to_nat (gn g)) in
  let* sum := sum_idx g 0 idxs in
  let* l := norm_idx (gl g) sum idxs in
  Val (GM (gn g) l (gsorted g)).

(** ** Histories: several mixture objects and the caller's own landmarks. *)

(** [caller] lists the landmarks the caller allocated and still has to delete
    (bookkeeping, not program state); objects of include/GaussianMixture.hpp:213-215. *)
Record world := World { wh : heap; wo : list (option gm); caller : list nat }.

(** The object a member function is called on, include/GaussianMixture.hpp:213-215. *)
Definition obj (w : world) (i : nat) : outcome gm :=
  match nth_error (wo w) i with
  | Some (Some g) => Val g
  | Some None => UB UseAfterFree
  | None => UB OutOfBounds
  end.

(** The public operations of the class (include/GaussianMixture.hpp:66-209)
    plus the two things a caller does around them: allocate a landmark, write
    through a landmark pointer (its own or one returned by getGaussian). *)
Inductive op :=
| ONewLmk (l : lmk)
| OWrite (p : nat) (l : lmk)
| ONewGM
| OCopyGM (src : nat)
| ODelGM (i : nat)
| OCopyTo (src dst : nat)
| OAdd (i p : nat) (w : Q) (allocateMem : bool)
| OAddGM (dst src : nat) (w : Q)
| OMul (i : nat) (w : Q)
| ORemove (i idx : nat)
| OSetW (i idx : nat) (w : Q)
| OUpdate (i idx : nat) (l : lmk) (w : Q)
| OMerge (i : nat) (t f : Q)
| OPrune (i : nat) (t : Q)
| OSort (i : nat)
| ONorm (i : nat).

Section Step.
Variable mdist2 : lmk -> lmk -> Q.
Variable srt : list slot -> list slot.

(** An object after a member function changed it, include/GaussianMixture.hpp:213-215. *)
Definition put (w : world) (h : heap) (i : nat) (g : gm) : world :=
  World h (upd (wo w) i (Some g)) (caller w).

(** One operation; dispatches to the functions above; include/GaussianMixture.hpp:50-210. *)
Definition step (w : world) (o : op) : outcome world :=
  match o with
  | ONewLmk l => let '(h, p) := alloc (wh w) l in Val (World h (wo w) (caller w ++ [p]))
  | OWrite p l => let* h := store (wh w) p l in Val (World h (wo w) (caller w))
  | ONewGM => Val (World (wh w) (wo w ++ [Some gm_new]) (caller w))
  | OCopyGM s =>
      let* g := obj w s in
      let* hg := gm_copy_ctor (wh w) g in
      Val (World (fst hg) (wo w ++ [Some (snd hg)]) (caller w))
  | ODelGM i =>
      let* g := obj w i in
      let* h := gm_destroy (wh w) g in
      Val (World h (upd (wo w) i None) (caller w))
  | OCopyTo s d =>
      let* gs := obj w s in
      let* gd := obj w d in
      let* hg := copyTo (wh w) gs gd in Val (put w (fst hg) d (snd hg))
  | OAdd i p q am =>
      let* g := obj w i in
      let* hg := addGaussian (wh w) g p q am in
      let w' := put w (fst hg) i (snd hg) in
      Val (if am then w' else World (wh w') (wo w') (remove Nat.eq_dec p (caller w)))
  | OAddGM d s q =>
      let* gd := obj w d in
      let* gs := obj w s in
      if Nat.eqb d s then UB BadIterator else
      let '(gd', gs') := addGM gd gs q in
      Val (put (put w (wh w) d gd') (wh w) s gs')
  | OMul i q => let* g := obj w i in Val (put w (wh w) i (multiplyWeights g q))
  | ORemove i k =>
      let* g := obj w i in
      let* hg := removeGaussian (wh w) g k in Val (put w (fst hg) i (snd hg))
  | OSetW i k q => let* g := obj w i in let* g' := setWeight g k q in Val (put w (wh w) i g')
  | OUpdate i k l q =>
      let* g := obj w i in
      let* x := updateGaussian (wh w) g k l q in
      Val (put w (fst (fst x)) i (snd (fst x)))
  | OMerge i t f =>
      let* g := obj w i in
      let* x := merge mdist2 (wh w) g t f in
      Val (put w (fst (fst x)) i (snd (fst x)))
  | OPrune i t =>
      let* g := obj w i in
      let* x := prune srt (wh w) g t in
      Val (put w (fst (fst x)) i (snd (fst x)))
  | OSort i => let* g := obj w i in Val (put w (wh w) i (sortByWeight srt g))
  | ONorm i => let* g := obj w i in let* g' := normalizeWeights g in Val (put w (wh w) i g')
  end.

(** Part of the above, include/GaussianMixture.hpp:50-210. *)
Fixpoint run (w : world) (os : list op) : outcome world :=
  match os with
  | [] => Val w
  | o :: r => let* w' := step w o in run w' r
  end.

End Step.

(** Start: empty heap, no objects; before the first constructor, include/GaussianMixture.hpp:251-255. *)
Definition world0 : world := World [] [] [].
