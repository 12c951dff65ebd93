(** Model of CostMatrixGeneral::partition, getPartitionSize, getPartition and the
    destructor (src/CostMatrix.cpp:30-231).

    Simplifications: entries are integers; the parallel arrays components_i and
    components_j are one list of pairs; boost::connected_components is the
    argument [cc] (vertex -> component number), [ncc] is its return value; an
    allocated matrix is its allocated size together with its entries, None being
    an entry that was never written.  Callers that write into the returned matrix
    are not modelled. *)
From Coq Require Import ZArith List Bool Arith.
From Verif Require Import Base ListUtil HungarianModel.
Import ListNotations.
Local Open Scope nat_scope.

(** components_i[c], components_j[c]; include/CostMatrix.hpp:107-108. *)
Definition block := (list nat * list nat)%type.

(** Edges added to the graph, src/CostMatrix.cpp:99-105; vertex i is row i,
    vertex j + nR column j. *)
Definition edges (C : mat) (minL : Z) (nR nC : nat) : list (nat * nat) :=
  flat_map (fun i => map (fun j => (i, j + nR))
     (filter (fun j => Z.ltb minL (C i j)) (seq 0 nC))) (seq 0 nR).

(** Filling components_i and components_j, src/CostMatrix.cpp:111-125. *)
Definition fill (cc : nat -> nat) (ncc nR nC : nat) : list block :=
  map (fun c => (filter (fun i => Nat.eqb (cc i) c) (seq 0 nR),
                 filter (fun j => Nat.eqb (cc (j + nR)) c) (seq 0 nC))) (seq 0 ncc).

(** components_i[z].push_back(i), src/CostMatrix.cpp:135, and the same for
    components_j, src/CostMatrix.cpp:138. *)
Definition push_i (L : list block) (z i : nat) : list block :=
  match nth_error L z with Some (il, jl) => upd L z (il ++ [i], jl) | None => L end.
(** Part of the above, src/CostMatrix.cpp:135, src/CostMatrix.cpp:138. *)
Definition push_j (L : list block) (z j : nat) : list block :=
  match nth_error L z with Some (il, jl) => upd L z (il, jl ++ [j]) | None => L end.

(** components_i[a].swap(components_i[b]) and the same for components_j,
    src/CostMatrix.cpp:141-142. *)
Definition swap (L : list block) (a b : nat) : outcome (list block) :=
  match nth_error L a, nth_error L b with
  | Some x, Some y => Val (upd (upd L a y) b x)
  | _, _ => UB OutOfBounds
  end.

(** Loop merging the components without rows or without columns,
    src/CostMatrix.cpp:127-147; z is combinedZeroPartition_ (None is -1).
    Result (components, combinedZeroPartition_, nMergedZeroPartitions). *)
Fixpoint merge_zero (fuel ncc : nat) (L : list block) (n : nat) (z : option nat) (merged : nat)
  : outcome (list block * option nat * nat) :=
  match fuel with
  | 0 => OutOfFuel
  | S fuel' =>
    if Nat.ltb n (ncc - merged) then
      match nth_error L n with
      | None => UB OutOfBounds
      | Some (il, jl) =>
        if (Nat.eqb (length il) 0 || Nat.eqb (length jl) 0)%bool then
          match z with
          | None => merge_zero fuel' ncc L (S n) (Some n) merged
          | Some z0 =>
            let* L1 := match il with
                       | i :: _ => Val (push_i L z0 i)
                       | [] => match jl with
                               | j :: _ => Val (push_j L z0 j)
                               | [] => UB OutOfBounds
                               end
                       end in
            let* L2 := swap L1 n (ncc - S merged) in
            merge_zero fuel' ncc L2 n z (S merged)
          end
        else merge_zero fuel' ncc L (S n) z merged
      end
    else Val (L, z, merged)
  end.

(** One entry of components_mat: allocated rows, allocated columns, entries; include/CostMatrix.hpp:115. *)
Definition alloc := (nat * nat * (nat -> nat -> option Z))%type.

(** Data members, include/CostMatrix.hpp:100-115.  cparts is None while
    components_mat is NULL. *)
Record cgen := CG {
  gC : mat; gR : nat; gCol : nat; minL : Z;
  cparts : option (list block); zeroP : option nat; nParts : nat;
  cmats : nat -> option alloc; extAlloc : nat -> bool }.

(** Constructor, src/CostMatrix.cpp:13-28; the flags components_extendedAllocate_
    are not initialised by the code (false here), they are only used for
    matrices that getPartition has created. *)
Definition cg_new (C : mat) (nR nC : nat) (ml : Z) : cgen :=
  CG C nR nC ml None None 0 (fun _ => None) (fun _ => false).

(** partition, src/CostMatrix.cpp:92-161.  With neither rows nor columns the vertex
    nR_+nC_-1 wraps to the largest unsigned value (106) and the result is written through the
    address of the first element of an empty vector (108-109). *)
Definition partition (cc : nat -> nat) (ncc : nat) (g : cgen) : outcome (cgen * nat) :=
  if Nat.eqb (nParts g) 0 then
    if Nat.eqb (gR g + gCol g) 0 then UB OutOfBounds
    else
    let L := fill cc ncc (gR g) (gCol g) in
    let* r := merge_zero (S (S (ncc + ncc))) ncc L 0 None 0 in
    let '(L', z, merged) := r in
    let np := ncc - merged in
    Val (CG (gC g) (gR g) (gCol g) (minL g) (Some L') z np (fun _ => None) (fun _ => false), np)
  else Val (g, nParts g).

(** p == combinedZeroPartition_, src/CostMatrix.cpp:173-175,228-230. *)
Definition is_zero (g : cgen) (p : nat) : bool :=
  match zeroP g with Some z => Nat.eqb p z | None => false end.

(** getPartitionSize, src/CostMatrix.cpp:164-177: (nRows, nCols, returned flag).
    Before partition() components_i is NULL and is indexed all the same. *)
Definition getPartitionSize (g : cgen) (p : nat) : outcome (nat * nat * bool) :=
  match cparts g with
  | None => UB NullDeref
  | Some L => match nth_error L p with
              | None => UB OutOfBounds
              | Some (il, jl) => Val (length il, length jl, negb (is_zero g p))
              end
  end.

(** Result of getPartition: Cp, row_indices, col_indices (nRows and nCols are
    their lengths) and the return value; include/CostMatrix.hpp:101-103. *)
Record gotten := Got { gmat : option alloc; grows : list nat; gcols : list nat; gflag : bool }.

(** The block filled in by getPartition, src/CostMatrix.cpp:199-209. *)
Definition new_alloc (g : cgen) (il jl : list nat) (ext : bool) : alloc :=
  (if ext then length il + length jl else length il,
   if ext then length il + length jl else length jl,
   fun i j => match nth_error il i, nth_error jl j with
              | Some x, Some y => Some (gC g x y)
              | _, _ => None
              end).

(** getPartition, src/CostMatrix.cpp:179-231. *)
Definition getPartition (g : cgen) (p : nat) (ext : bool) : outcome (cgen * gotten) :=
  match cparts g with
  | None => Val (g, Got None [] [] false)
  | Some L =>
    if Nat.ltb p (nParts g) then
      match nth_error L p with
      | None => UB OutOfBounds
      | Some (il, jl) =>
        let a := match cmats g p with Some a => a | None => new_alloc g il jl ext end in
        Val (CG (gC g) (gR g) (gCol g) (minL g) (cparts g) (zeroP g) (nParts g)
                (fset (cmats g) p (Some a)) (fset (extAlloc g) p ext),
             Got (Some a) il jl (negb (is_zero g p)))
      end
    else UB OutOfBounds
  end.

(** A sequence of getPartition calls; returns the results in order; include/CostMatrix.hpp:101-103. *)
Fixpoint calls (g : cgen) (h : list (nat * bool)) : outcome (cgen * list gotten) :=
  match h with
  | [] => Val (g, [])
  | (p, e) :: h' =>
    let* r := getPartition g p e in
    let* s := calls (fst r) h' in
    Val (fst s, snd r :: snd s)
  end.

(** Rows of components_mat[p] the destructor deletes, src/CostMatrix.cpp:37-53. *)
Definition freed_rows (g : cgen) (b : block) (p : nat) : nat :=
  if extAlloc g p then length (fst b) + length (snd b) else length (fst b).

(** Destructor, src/CostMatrix.cpp:30-86, as far as components_mat is concerned:
    deleting more rows than allocated reads past the array; result is the number
    of rows that are never deleted. *)
Fixpoint destroy_from (g : cgen) (L : list block) (p : nat) : outcome nat :=
  match L with
  | [] => Val 0
  | b :: L' =>
    let* rest := destroy_from g L' (S p) in
    match cmats g p with
    | None => Val rest
    | Some (r, _, _) =>
      if Nat.ltb r (freed_rows g b p) then UB OutOfBounds
      else Val (r - freed_rows g b p + rest)
    end
  end.
(** Part of the above, src/CostMatrix.cpp:30-86. *)
Definition destroy (g : cgen) : outcome nat :=
  match cparts g with
  | None => Val 0
  | Some L => destroy_from g (firstn (nParts g) L) 0
  end.
