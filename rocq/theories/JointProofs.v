(** Proofs for C175. *)
From mathcomp Require Import all_ssreflect all_algebra.
From Verif Require Import JointModel JointSpec.
Set Implicit Arguments.
Unset Strict Implicit.
Unset Printing Implicit Defensive.
Import Order.Theory GRing.Theory Num.Theory.
Local Open Scope ring_scope.

Section Proofs.
Variable F : realFieldType.
Variables r l m : nat.

Lemma schur_unit p (A : 'M[F]_p) (W : 'M[F]_(m, p)) (C : 'M[F]_m) :
  A \in unitmx -> block_mx A W^T W C \in unitmx -> C - W *m invmx A *m W^T \in unitmx.
Proof.
move=> uA uS.
have E : block_mx A W^T W C *m block_mx 1%:M (- (invmx A *m W^T)) 0 1%:M =
         block_mx A 0 W (C - W *m invmx A *m W^T).
  rewrite mulmx_block !mulmx1 !mulmx0 !addr0 !mulmxN mulmxA mulmxV // mul1mx addNr.
  by rewrite mulmxA [_ + C]addrC.
have := congr1 determinant E.
rewrite det_mulmx det_ublock !det1 !mulr1 det_lblock => D.
by move: uS; rewrite !unitmxE D unitrM => /andP[].
Qed.

Lemma inv_of n (A B : 'M[F]_n) : A *m B = 1%:M -> A \in unitmx /\ B = invmx A.
Proof.
move=> E; have [uA _] := mulmx1_unit E; split=> //.
by rewrite -[B]mul1mx -(mulVmx uA) -mulmxA E mulmx1.
Qed.

Lemma inv_block p (A : 'M[F]_p) (W : 'M[F]_(m, p)) (C : 'M[F]_m) :
  A \in unitmx -> A^T = A -> C^T = C -> block_mx A W^T W C \in unitmx ->
  let Ci := invmx A in
  let N := invmx (C - W *m Ci *m W^T) in
  let L := - N *m W *m Ci in
  let K := Ci + L^T *m invmx N *m L in
  block_mx K L^T L N = invmx (block_mx A W^T W C).
Proof.
move=> uA sA sC uS Ci N L K.
have uZ := schur_unit uA uS.
set Z := C - W *m invmx A *m W^T in uZ.
have sCi : Ci^T = Ci by rewrite /Ci trmx_inv sA.
have sZ : Z^T = Z by rewrite /Z linearB /= !trmx_mul trmxK sC -/Ci sCi mulmxA.
have sN : N^T = N by rewrite /N -/Z trmx_inv sZ.
have NZ : invmx N = Z by rewrite /N invmxK.
have LT : L^T = - (Ci *m W^T *m N).
  by rewrite /L !trmx_mul linearN /= sN sCi !mulmxN mulmxA.
have ZN : Z *m N = 1%:M by rewrite /N mulmxV.
have LE : L = - (N *m W *m Ci) by rewrite /L !mulNmx.
have KE : K = Ci + Ci *m W^T *m N *m W *m Ci.
  rewrite /K NZ LT LE mulmxN !mulNmx opprK; congr (_ + _).
  by rewrite -!mulmxA (mulmxA Z) ZN mul1mx.
have ACi : A *m Ci = 1%:M by rewrite /Ci mulmxV.
apply: (proj2 (inv_of _)).
rewrite mulmx_block.
have ZE : C - W *m Ci *m W^T = Z by [].
clearbody K L Z N Ci.
have e1 : A *m K + W^T *m L = 1%:M.
  rewrite KE mulmxDr ACi !mulmxA ACi mul1mx LE mulmxN !mulmxA.
  by rewrite -addrA subrr addr0.
have e2 : A *m L^T + W^T *m N = 0.
  by rewrite LT mulmxN !mulmxA ACi mul1mx addNr.
have e4 : W *m L^T + C *m N = 1%:M.
  by rewrite LT mulmxN !mulmxA addrC -mulmxBl ZE ZN.
have e3 : W *m K + C *m L = 0.
  rewrite KE mulmxDr LE mulmxN !mulmxA -addrA -!mulmxBl.
  have -> : W *m Ci *m W^T - C = - Z by rewrite -ZE opprB.
  by rewrite !mulNmx ZN mul1mx subrr.
by rewrite e1 e2 e3 e4 -scalar_mx_block.
Qed.

Lemma scal_tr (x : 'M[F]_1) : (x^T) 0 0 = x 0 0.
Proof. by rewrite mxE. Qed.

Lemma maha_block p (K : 'M[F]_p) (L : 'M[F]_(m, p)) (N : 'M[F]_m) (nu : 'cV[F]_p) (v : 'cV[F]_m) :
  ((col_mx nu v)^T *m block_mx K L^T L N *m col_mx nu v) 0 0 =
  (nu^T *m K *m nu) 0 0 + 2%:R * (v^T *m L *m nu) 0 0 + (v^T *m N *m v) 0 0.
Proof.
have AD (a b : 'M[F]_1) : (a + b) 0 0 = a 0 0 + b 0 0 by rewrite mxE.
rewrite tr_col_mx mul_row_block mul_row_col !mulmxDl !AD.
have -> : (nu^T *m L^T *m v) 0 0 = (v^T *m L *m nu) 0 0.
  by rewrite -[LHS]scal_tr !trmx_mul !trmxK mulmxA.
by rewrite mulr_natl mulr2n !addrA.
Qed.

Section General.
Variable X : nat -> nat -> 'M[F]_m.
Variable C : nat -> 'M[F]_m.
Hypothesis sC : forall i, (C i)^T = C i.

Lemma joint_sym h : (joint X C h)^T = joint X C h.
Proof.
elim: h => [|a h IH] /=; first by rewrite trmx0.
by rewrite tr_block_mx IH sC trmxK.
Qed.

Lemma regular_unit h : regular X C h -> joint X C h \in unitmx.
Proof. by case: h => [|a h] /= => [_|[]//]; rewrite unitmxE det_mx00 unitr1. Qed.

Lemma flat_col0 (x y : 'cV[F]_0) : x = y.
Proof. by apply/matrixP => -[]. Qed.

Lemma flat0 (x y : 'M[F]_0) : x = y.
Proof. by apply/matrixP => -[]. Qed.

Lemma node_exact h : regular X C h ->
  node_of true X C h = (invmx (joint X C h), stack h, maha (joint X C h) (stack h)).
Proof.
elim: h => [|a h IH] //= R.
  congr (_, _, _); first exact: flat0.
  by rewrite /maha mulmx0 mxE.
case: R => uS R; have uA := regular_unit R.
rewrite (IH R) /= /extend.
have sA := joint_sym h.
set A := joint X C h in uA sA uS *; set W := blocks (X a.1) h in uS *.
case: h IH R A uA sA W uS => [|b h] IH R A uA sA W uS /=.
- have E : block_mx 0 0 0 (invmx (C a.1)) = invmx (block_mx A W^T W (C a.1)).
    have uC : C a.1 \in unitmx.
      move: uS; rewrite !unitmxE.
      have -> : block_mx A W^T W (C a.1) = block_mx 1%:M 0 0 (C a.1).
        congr block_mx; [exact: flat0 | by apply/matrixP => -[] | by apply/matrixP => i -[]].
      by rewrite det_ublock det1 mul1r.
    apply: (proj2 (inv_of _)).
    rewrite mulmx_block !mulmx0 !add0r.
    have -> : W^T *m invmx (C a.1) = 0 by apply/matrixP => -[].
    rewrite mulmxV // [RHS]scalar_mx_block; congr block_mx; exact: flat0.
  rewrite E; congr (_, _, _).
  rewrite /maha -E.
  have -> : block_mx 0 0 0 (invmx (C a.1)) = block_mx 0 (0 : 'M[F]_(m, 0))^T 0 (invmx (C a.1)) by rewrite trmx0.
  rewrite maha_block !mulmx0 [X in _ + X]/=.
  have Z0 : (0 : 'M[F]_1) 0 0 = 0 by rewrite mxE.
  by rewrite !Z0 mulr0 addr0.
- have E := inv_block uA sA (sC a.1) uS.
  rewrite /= in E; rewrite E; congr (_, _, _).
  have AD (x y : 'M[F]_1) : (x + y) 0 0 = x 0 0 + y 0 0 by rewrite mxE.
  rewrite {2}/maha -E maha_block mulmxDr mulmxDl AD /maha !mulmxA.
  by rewrite -!addrA.
Qed.
End General.
End Proofs.
