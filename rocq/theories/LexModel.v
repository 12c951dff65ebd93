(** Model of PermutationLexicographic (src/PermutationLexicographic.cpp:38-96) and
    of BruteForceLinearAssignment::run (src/BruteForceAssignment.cpp:40-121).

    Simplifications: unsigned counters are unbounded; the swap loop that reverses
    the tail of o_ is list reversal; std::next_permutation is the function
    [next_perm] below, written from its definition in the C++ standard. *)
From Coq Require Import ZArith List Bool Arith.
From Verif Require Import Base ListUtil HungarianModel.
Import ListNotations.
Local Open Scope nat_scope.

(** In an ascending list, exchange x with the first element greater than x;
    a step of std::next_permutation, src/PermutationLexicographic.cpp:92. *)
Fixpoint exchange_first (x : nat) (asc : list nat) : option (nat * list nat) :=
  match asc with
  | [] => None
  | y :: r => if Nat.ltb x y then Some (y, x :: r)
              else match exchange_first x r with
                   | Some (z, r') => Some (z, y :: r')
                   | None => None
                   end
  end.

(** std::next_permutation, called at src/PermutationLexicographic.cpp:90: None when
    the sequence is the last one (the function returns false).  For x followed by
    the non-increasing rest l: x is exchanged with the last greater element and the
    rest is reversed, i.e. in the reversed rest x replaces the first greater element. *)
Fixpoint next_perm (l : list nat) : option (list nat) :=
  match l with
  | [] => None
  | x :: r =>
    match next_perm r with
    | Some r' => Some (x :: r')
    | None => match exchange_first x (rev r) with
              | Some (y, r') => Some (y :: r')
              | None => None
              end
    end
  end.

(** Data members, include/PermutationLexicographic.hpp:75-80. *)
Record lex := LX { lo : list nat; lM : nat; lZ : nat; lP : nat; llast : bool }.

(** Constructor, src/PermutationLexicographic.cpp:38-62. *)
Definition lex_new (nM nZ : nat) (includeClutter : bool) : lex :=
  let clutter := if Nat.eqb nM nZ then includeClutter else true in
  let oSize := if clutter then nM + nZ else nM in
  LX (map (fun i => if Nat.ltb i nZ then i else nZ) (seq 0 oSize)) nM nZ 0 false.

(** next, src/PermutationLexicographic.cpp:70-96: (state, return value, permutation).
    With an empty array v = oSize_ - 1 wraps to the largest unsigned value and the
    swap loop leaves the array. *)
Definition next (s : lex) : outcome (lex * nat * list nat) :=
  if llast s then Val (s, 0, repeat 0 (length (lo s)))
  else
    if Nat.eqb (length (lo s)) 0 then UB OutOfBounds
    else
      let o1 := firstn (lM s) (lo s) ++ rev (skipn (lM s) (lo s)) in
      match next_perm o1 with
      | Some o2 => Val (LX o2 (lM s) (lZ s) (S (lP s)) false, S (lP s), lo s)
      | None => Val (LX (rev o1) (lM s) (lZ s) (S (lP s)) true, S (lP s), lo s)
      end.

(** k successive calls; (return value, permutation) of each; src/PermutationLexicographic.cpp:70-96. *)
Fixpoint next_calls (k : nat) (s : lex) : outcome (list (nat * list nat)) :=
  match k with
  | 0 => Val []
  | S k' =>
    let* r := next s in
    let '(s', n, o) := r in
    let* rest := next_calls k' s' in
    Val ((n, o) :: rest)
  end.

(** ------- BruteForceLinearAssignment ------- *)

(** Score of one assignment, src/BruteForceAssignment.cpp:96-104. *)
Definition bf_score (C : mat) (offset : Z) (maxToMin : bool) (o : list nat) : Z :=
  fold_left (fun s i => if maxToMin then (s + C i (nth i o 0%nat))%Z
                        else (s - (C i (nth i o 0%nat) + offset))%Z) (seq 0 (length o)) 0%Z.

(** The enumeration loop, src/BruteForceAssignment.cpp:83-108: the elements pushed
    into the priority queue, in order. *)
Fixpoint bf_loop (fuel : nat) (s : lex) (C : mat) (offset : Z) (maxToMin : bool)
  : outcome (list (list nat * Z)) :=
  match fuel with
  | 0 => OutOfFuel
  | S fuel' =>
    let* r := next s in
    let '(s', np, o) := r in
    if Nat.eqb np 0 then Val []
    else
      let* rest := bf_loop fuel' s' C offset maxToMin in
      Val ((o, bf_score C offset maxToMin o) :: rest)
  end.

(** run, src/BruteForceAssignment.cpp:52-119.  The priority queue (std::priority_queue
    with operator< on the score) is the argument [pq]: it turns the pushed
    elements into the sequence popped.  Result: the caller's matrix afterwards and
    (a[k], s[k]) for k = 0 .. nAssignments_-1; the matrix is changed as by
    HungarianMethod (same two loops), but not changed back. *)
Definition brute (pq : list (list nat * Z) -> list (list nat * Z)) (fuel : nat)
    (C : mat) (n : nat) (maxToMin : bool) : outcome (mat * list (list nat * Z)) :=
  let '(C1, offset) := if maxToMin then (C, 0%Z) else prepare n C false in
  let* l := bf_loop fuel (lex_new n n false) C1 offset maxToMin in
  Val (C1, pq l).
