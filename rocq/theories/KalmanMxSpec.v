(** Quadratic forms and the information form, stated without the filter. *)
From mathcomp Require Import all_ssreflect all_algebra.
From Verif Require Import KalmanMxModel.
Set Implicit Arguments.
Unset Strict Implicit.
Unset Printing Implicit Defensive.
Import Order.Theory GRing.Theory Num.Theory.
Local Open Scope ring_scope.

Section Spec.
Variable F : realFieldType.

(** x^T A x *)
Definition qform k (A : 'M[F]_k) (x : 'cV[F]_k) : F := (x^T *m A *m x) 0 0.
Definition symmetric k (A : 'M[F]_k) : Prop := A^T = A.
Definition psd k (A : 'M[F]_k) : Prop := forall x, 0 <= qform A x.
Definition posdef k (A : 'M[F]_k) : Prop := forall x, x != 0 -> 0 < qform A x.

(** What one reading adds to the information matrix and to the information vector. *)
Definition info_mx n m (r : reading F n m) : 'M[F]_n := (r_H r)^T *m invmx (r_N r) *m r_H r.
Definition info_vec n m (r : reading F n m) : 'cV[F]_n := (r_H r)^T *m invmx (r_N r) *m (r_z r - r_b r).

End Spec.
