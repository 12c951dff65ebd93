(** Model of class Murty, src/MurtyAlgorithm.cpp:72-336 and
    include/MurtyAlgorithm.hpp:86-220.

    Simplifications: double is Z; int / unsigned counters are unbounded; the
    buffer C_t_ is a function that is rebuilt on the block used in each
    partition (entries outside the block are 0 here and are not read); the
    array Z_pairedToReal_M (147-153) is written and never read and is left out.
    A node keeps the ids and assignments of its ancestors, nearest first, in
    place of the pointer to its parent (nodes do not change once pushed); the
    root is the node without ancestors. *)
From Coq Require Import ZArith List Bool Arith.
From Verif Require Import Base ListUtil HungarianModel.
Import ListNotations.
Local Open Scope Z_scope.

(** MurtyNode, include/MurtyAlgorithm.hpp:86-129. *)
Record node := ND { nid : nat; na : list nat; ns : Z; nanc : list (nat * list nat) }.

(** Data members of Murty, include/MurtyAlgorithm.hpp:200-214; [mq] are the
    members of the priority queue. *)
Record murty := MU { mC : mat; mn : nat; mbig : Z; mR : nat; mCols : nat;
                     mk : nat; mq : list node; mbest : Z }.

(** Constructor, src/MurtyAlgorithm.cpp:107-121. *)
Definition murty_new (C : mat) (n : nat) (big : Z) : murty := MU C n big n n 0 [] 0.

(** setRealAssignmentBlock, src/MurtyAlgorithm.cpp:128-135. *)
Definition setRealAssignmentBlock (m : murty) (nR nC : nat) : murty :=
  MU (mC m) (mn m) (mbig m) (Nat.min nR (mn m)) (Nat.min nC (mn m)) (mk m) (mq m) (mbest m).

(** Sum of C_[i][a[i]] over rows i, src/MurtyAlgorithm.cpp:186-198,297-304. *)
Fixpoint row_sum (C : mat) (i : nat) (a : list nat) : Z :=
  match a with
  | [] => 0
  | y :: r => C i y + row_sum C (S i) r
  end.

(** colRemap: the columns not used by the fixed rows, src/MurtyAlgorithm.cpp:179-182,222-229. *)
Definition free_cols (n : nat) (fixed : list nat) : list nat :=
  filter (fun j => negb (existsb (Nat.eqb j) fixed)) (seq 0 n).

(** colRemapR, src/MurtyAlgorithm.cpp:210,225: position of column c in colRemap. *)
Fixpoint index_of (c : nat) (l : list nat) : option nat :=
  match l with
  | [] => None
  | x :: r => if Nat.eqb x c then Some 0%nat else option_map S (index_of c r)
  end.

(** The do-while loop over the ancestors, src/MurtyAlgorithm.cpp:240-265: the
    (currentPart, nextAssignment[currentPart]) visited.  [p] is the id of the
    new node, [cur] the id of the current one. *)
Fixpoint walk (p cur : nat) (anc : list (nat * list nat)) : outcome (list (nat * nat)) :=
  match anc with
  | [] => UB NullDeref
  | (id, a) :: rest =>
    let* c := of_option OutOfBounds (nth_error a cur) in
    match rest with
    | [] => Val [(cur, c)]
    | _ => if Nat.leb p id then let* r := walk p id rest in Val ((cur, c) :: r)
           else Val [(cur, c)]
    end
  end.

(** Entries of C_t_ overwritten with -bigNumber_ for one ancestor,
    src/MurtyAlgorithm.cpp:252-262. *)
Definition forbid (p m nC : nat) (free : list nat) (big : Z) (Ct : mat) (rc : nat * nat) : outcome mat :=
  let i := (fst rc - p)%nat in
  let* j := of_option Uninit (index_of (snd rc) free) in
  Val (fun x y =>
    if Nat.eqb x i && (Nat.eqb y j || (Nat.leb nC j && (Nat.leb nC y && Nat.ltb y m)))
    then - big else Ct x y).

(** All of them, the do-while loop in src/MurtyAlgorithm.cpp:240-265. *)
Fixpoint forbid_all (p m nC : nat) (free : list nat) (big : Z) (Ct : mat) (l : list (nat * nat)) : outcome mat :=
  match l with
  | [] => Val Ct
  | rc :: r => let* Ct' := forbid p m nC free big Ct rc in forbid_all p m nC free big Ct' r
  end.

(** One partition: body of the loop in src/MurtyAlgorithm.cpp:166-318.  None when
    no solution is possible. *)
Definition make_child (M : murty) (parent : node) (p : nat) : outcome (option node) :=
  let n := mn M in
  let C := mC M in
  let fixed := firstn p (na parent) in
  let anc := (nid parent, na parent) :: nanc parent in
  let free := free_cols n fixed in
  let m := (n - p)%nat in
  if negb (Nat.eqb (length free) m) then UB OutOfBounds
  else
    let Ct0 : mat := fun i j => if Nat.ltb i m && Nat.ltb j m then C (p + i)%nat (nth j free 0%nat) else 0 in
    let* l := walk p p anc in
    let* Ct := forbid_all p m (mCols M) free (mbig M) Ct0 l in
    if existsb (fun j => negb (Ct 0%nat j =? - mbig M)) (seq 0 m) then
      let* r := hungarian Ct m true in
      match snd r with
      | None => UB Uninit
      | Some (t, _) =>
        let rest := map (fun j => nth j free 0%nat) t in
        Val (Some (ND p (fixed ++ rest) (row_sum C p rest + row_sum C 0 fixed) anc))
      end
    else Val None.

(** The loop over the partitions, src/MurtyAlgorithm.cpp:166-318: nodes pushed, in order. *)
Fixpoint make_children (M : murty) (parent : node) (ps : list nat) : outcome (list node) :=
  match ps with
  | [] => Val []
  | p :: r =>
    let* c := make_child M parent p in
    let* cs := make_children M parent r in
    Val (match c with Some x => x :: cs | None => cs end)
  end.

(** partitionMax, src/MurtyAlgorithm.cpp:158-163. *)
Definition partition_max (M : murty) : nat := if Nat.eqb (mR M) (mn M) then (mn M - 1)%nat else mR M.

(** What findNextBest gives back (src/MurtyAlgorithm.cpp:141,319-336): return value, assignment (None after assignment.reset()) and score. *)
Definition answer : Type := (Z * option (list nat) * Z)%type.

Section Queue.
(** std::priority_queue<MurtyNode*, ..., MurtyNodeCompare>: [pick] gives the top
    and what is left after pop. *)
Variable pick : list node -> option (node * list node).

(** findNextBest, src/MurtyAlgorithm.cpp:141-336. *)
Definition findNextBest (M : murty) : outcome (murty * answer) :=
  if Nat.eqb (mk M) 0 then
    let* r := hungarian (mC M) (mn M) true in
    match snd r with
    | None => UB Uninit
    | Some (a, s) =>
      Val (MU (fst r) (mn M) (mbig M) (mR M) (mCols M) 1 (ND 0 a s [] :: mq M) s, (1, Some a, s))
    end
  else
    match pick (mq M) with
    | None => Val (M, (-1, None, 0))
    | Some (parent, q) =>
      let* cs := make_children M parent (seq (nid parent) (partition_max M - nid parent)) in
      let q' := q ++ cs in
      match pick q' with
      | None => Val (MU (mC M) (mn M) (mbig M) (mR M) (mCols M) (mk M) q' (mbest M), (-1, None, 0))
      | Some (hi, _) =>
        Val (MU (mC M) (mn M) (mbig M) (mR M) (mCols M) (S (mk M)) q' (mbest M),
             (Z.of_nat (S (mk M)), Some (na hi), ns hi))
      end
    end.

(** k successive calls of findNextBest (src/MurtyAlgorithm.cpp:141-336) by the caller,
    as in include/RBPHDFilter.hpp:955-975. *)
Fixpoint best_calls (k : nat) (M : murty) : outcome (list answer) :=
  match k with
  | O => Val []
  | S k' =>
    let* r := findNextBest M in
    let* rest := best_calls k' (fst r) in
    Val (snd r :: rest)
  end.

End Queue.
