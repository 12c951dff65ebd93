(** Model of MatPerm::calc, src/MatrixPermanent.cpp:41-113.

    Simplifications: double is the rationals (Qc); int k and pow(2,n-1) are
    unbounded; the arrays x and g are lists of length n. *)
From Coq Require Import ZArith QArith Qcanon List Bool Arith.
From Verif Require Import Base ListUtil.
Import ListNotations.
Local Open Scope Qc_scope.

(** Local variables that live across iterations, src/MatrixPermanent.cpp:48-51. *)
Record pst := PS { pg : list bool; px : list Qc; ps : Qc; pp : Qc }.

(** x_i += z * A(i,j) for every i, src/MatrixPermanent.cpp:93-94. *)
Definition add_col (A : nat -> nat -> Qc) (z : Qc) (j : nat) (x : list Qc) : list Qc :=
  map (fun iv => snd iv + z * A (fst iv) j) (combine (seq 0 (length x)) x).

(** The product started at s, src/MatrixPermanent.cpp:64-67 and 92-96. *)
Definition prod_from (s : Qc) (x : list Qc) : Qc := fold_left Qcmult x s.

(** Index of the first set bit, the loop in src/MatrixPermanent.cpp:79-81 (j - 1);
    None when the loop runs off the array. *)
Fixpoint first_set (g : list bool) : option nat :=
  match g with
  | [] => None
  | true :: _ => Some 0%nat
  | false :: r => option_map S (first_set r)
  end.

(** One iteration of the main loop, src/MatrixPermanent.cpp:69-101. *)
Definition pstep (A : nat -> nat -> Qc) (k : nat) (st : pst) : outcome pst :=
  let* j := if Nat.even k then Val 0%nat
            else match first_set (pg st) with
                 | Some i => Val (S i)
                 | None => UB OutOfBounds
                 end in
  match nth_error (pg st) j with
  | None => UB OutOfBounds
  | Some b =>
    let s := ps st * (-(1)) in
    let z := if b then 1 - Q2Qc 2 else 1 in
    let x := add_col A z j (px st) in
    Val (PS (upd (pg st) j (negb b)) x s (pp st + s * prod_from 1 x))
  end.

(** [cnt] iterations from k, src/MatrixPermanent.cpp:69. *)
Fixpoint prun (A : nat -> nat -> Qc) (cnt k : nat) (st : pst) : outcome pst :=
  match cnt with
  | 0%nat => Val st
  | S c => let* st' := pstep A k st in prun A c (S k) st'
  end.

(** x_i = A(i,n-1) - 0.5 * row_i_sum, src/MatrixPermanent.cpp:56-62. *)
Definition x_init (A : nat -> nat -> Qc) (n : nat) (i : nat) : Qc :=
  A i (n - 1)%nat - Q2Qc (1 # 2) * fold_left (fun s j => s + A i j) (seq 0 n) 0.

(** -DBL_MAX, src/MatrixPermanent.cpp:43-45. *)
Definition minus_dbl_max : Qc := Q2Qc (inject_Z (- (2 ^ 1024 - 2 ^ 971))).

(** calc, src/MatrixPermanent.cpp:41-113.  The number of iterations is
    max(0, floor(pow(2,n-1)) - 1); for n = 0 pow gives 0.5 and there are none. *)
Definition calc (nr nc : nat) (A : nat -> nat -> Qc) : outcome Qc :=
  if Nat.eqb nr nc then
    let n := nr in
    let x := map (x_init A n) (seq 0 n) in
    let* st := prun A (2 ^ (n - 1) - 1) 2 (PS (repeat false n) x (-(1)) (prod_from (-(1)) x)) in
    let r := Q2Qc 2 * pp st in
    Val (if Nat.even n then r else r * (-(1)))
  else Val minus_dbl_max.
