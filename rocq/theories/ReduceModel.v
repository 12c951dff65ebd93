(** Model of CostMatrix::reduce / getCostMatrixReduced (src/CostMatrix.cpp:237-373)
    and of HungarianMethod::run<CostMatrix> (src/HungarianMethod.cpp:36-69).

    Simplifications: entries are unbounded integers; the matrix copy C_reduced_
    is the matrix it was filled with (the memory leaked when n_reduced_ is set to
    0 after the allocation, src/CostMatrix.cpp:327-338, and when reduce is called
    twice is not modelled); the local best_score, never read, is left out. *)
From Coq Require Import ZArith List Bool Arith.
From Verif Require Import Base ListUtil HungarianModel.
Import ListNotations.
Local Open Scope Z_scope.

(** Data members, include/CostMatrix.hpp:166-175 and C_ of the base class;
    None is -1 in a_fixed_ / a_fixed_reverse_. *)
Record cmat := CM {
  cC : mat; cn : nat;
  af : nat -> option nat; ar : nat -> option nat;
  ired : list nat; jred : list nat;
  nred : nat; cCr : mat; avail : bool }.

(** Constructor, src/CostMatrix.cpp:238-250. *)
Definition cm_new (C : mat) (n : nat) : cmat :=
  CM C n (fun _ => None) (fun _ => None) [] [] 0 (fun _ _ => 0) false.

(** The entry is at or beyond the limit, src/CostMatrix.cpp:281. *)
Definition at_limit (lim : Z) (minVal : bool) (v : Z) : bool :=
  ((lim <=? v) && negb minVal || (v <=? lim) && minVal)%bool.

(** Variables of the first double loop of reduce, src/CostMatrix.cpp:269-276. *)
Record scan := SC { sC : mat; ni : nat -> nat; nj : nat -> nat;
                    saf : nat -> option nat; sar : nat -> option nat }.

(** Store into one matrix entry, src/CostMatrix.cpp:282. *)
Definition mset (C : mat) (i j : nat) (v : Z) : mat :=
  fun x y => if (Nat.eqb x i && Nat.eqb y j)%bool then v else C x y.

(** Body of the double loop, src/CostMatrix.cpp:281-298. *)
Definition scan_entry (lim : Z) (minVal : bool) (s : scan) (ij : nat * nat) : scan :=
  let '(i, j) := ij in
  if at_limit lim minVal (sC s i j) then
    SC (mset (sC s) i j lim) (ni s) (nj s) (saf s) (sar s)
  else
    let ni' := fset (ni s) i (S (ni s i)) in
    let nj' := fset (nj s) j (S (nj s j)) in
    let both := (Nat.eqb (ni' i) 1 && Nat.eqb (nj' j) 1)%bool in
    let af1 := if both then fset (saf s) i (Some j) else saf s in
    let ar1 := if both then fset (sar s) j (Some i) else sar s in
    SC (sC s) ni' nj'
       (if Nat.ltb 1 (ni' i) then fset af1 i None else af1)
       (if Nat.ltb 1 (nj' j) then fset ar1 j None else ar1).

(** Body of the second loop, src/CostMatrix.cpp:303-320; state
    (a_fixed_, a_fixed_reverse_, i_reduced_, j_reduced_). *)
Definition sift (s : scan) (st : (nat -> option nat) * (nat -> option nat) * list nat * list nat) (k : nat)
  : (nat -> option nat) * (nat -> option nat) * list nat * list nat :=
  let '(f, r, il, jl) := st in
  let f' := match f k with
            | Some j => if Nat.eqb (nj s j) 1 then f else fset f k None
            | None => f end in
  let r' := match r k with
            | Some i => if Nat.eqb (ni s i) 1 then r else fset r k None
            | None => r end in
  (f', r',
   match f' k with None => il ++ [k] | Some _ => il end,
   match r' k with None => jl ++ [k] | Some _ => jl end).

(** reduce, src/CostMatrix.cpp:267-344.  A failing assert (line 322) is Aborted. *)
Definition reduce (m : cmat) (lim : Z) (minVal : bool) : outcome cmat :=
  let s := fold_left (scan_entry lim minVal) (entries (cn m))
             (SC (cC m) (fun _ => 0%nat) (fun _ => 0%nat) (af m) (ar m)) in
  let '(f, r, il, jl) := fold_left (sift s) (seq 0 (cn m)) (saf s, sar s, ired m, jred m) in
  if Nat.eqb (length il) (length jl) then
    let nr := length il in
    let Cr := if Nat.eqb nr 0 then cCr m else fun i j => sC s (nth i il 0%nat) (nth j jl 0%nat) in
    if Nat.eqb nr 1 then
      Val (CM (sC s) (cn m) (fset f (nth 0 il 0%nat) (Some (nth 0 jl 0%nat))) r il jl 0 Cr true)
    else Val (CM (sC s) (cn m) f r il jl nr Cr true)
  else UB Aborted.

(** fixedScore loop, src/CostMatrix.cpp:356-362. *)
Fixpoint fixed_score (C : mat) (f : nat -> option nat) (xs : list nat) : Z :=
  match xs with
  | [] => 0
  | x :: r => match f x with Some y => C x y | None => 0 end + fixed_score C f r
  end.

(** getCostMatrixReduced, src/CostMatrix.cpp:346-373.  None is the return value
    -1; otherwise (C, n_reduced, fixedAssignments, fixedScore, i_remap, j_remap). *)
Definition getReduced (m : cmat) : option (mat * nat * (nat -> option nat) * Z * list nat * list nat) :=
  if avail m then
    Some (cCr m, nred m, af m, fixed_score (cC m) (af m) (seq 0 (cn m)),
          firstn (nred m) (ired m), firstn (nred m) (jred m))
  else None.

(** Writing the reduced solution back, src/HungarianMethod.cpp:53-55, and reading
    off soln[0..n-1]; an entry left at -1 is None. *)
Definition write_back (f : nat -> option nat) (imap jmap soln : list nat) : nat -> option nat :=
  fold_left (fun g k => fset g (nth k imap 0%nat) (Some (nth (nth k soln 0%nat) jmap 0%nat)))
            (seq 0 (length soln)) f.

(** run<CostMatrix>, src/HungarianMethod.cpp:36-69: (return value, soln, cost).
    The restored copies of the matrices are dropped (C11).  When run returns
    false the contents of soln and cost are not modelled (None). *)
Definition run_cm (m : cmat) (maximize : bool) : outcome (bool * option (list (option nat) * Z)) :=
  let full :=
    let* r := hungarian (cC m) (cn m) maximize in
    match snd r with
    | Some (a, c) => Val (true, Some (map Some a, c))
    | None => Val (false, None)
    end in
  match getReduced m with
  | None => full
  | Some (Cr, nr, f, fs, imap, jmap) =>
      if Nat.ltb 1 nr then
        let* r := hungarian Cr nr maximize in
        match snd r with
        | Some (a, c) => Val (false, Some (map (write_back f imap jmap a) (seq 0 (cn m)), fs + c))
        | None => Val (false, None)
        end
      else if Nat.eqb nr 0 then Val (true, Some (map f (seq 0 (cn m)), fs))
      else full
  end.
