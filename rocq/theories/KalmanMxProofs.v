(** The Kalman correction for matrices of any size. *)
From mathcomp Require Import all_ssreflect all_algebra.
From Verif Require Import KalmanMxModel KalmanMxSpec.
Set Implicit Arguments.
Unset Strict Implicit.
Unset Printing Implicit Defensive.
Import Order.Theory GRing.Theory Num.Theory.
Local Open Scope ring_scope.

Section Proofs.
Variable F : realFieldType.

Lemma half_double k (A : 'M[F]_k) : 2%:R^-1 *: (A + A) = A.
Proof.
  rewrite -mulr2n -scaler_nat scalerA mulVf ?scale1r //.
  by rewrite pnatr_eq0.
Qed.

Lemma posdef_unit k (A : 'M[F]_k) : posdef A -> A \in unitmx.
Proof.
  move=> HA. rewrite -row_free_unit -kermx_eq0. apply/negPn/negP => /rowV0Pn [v /sub_kermxP Hv Hn].
  have: v^T != 0 by apply: contra Hn => /eqP E; rewrite -(trmxK v) E trmx0.
  move/HA. by rewrite /qform trmxK Hv mul0mx mxE ltxx.
Qed.

Lemma qform_add k (A B : 'M[F]_k) x : qform (A + B) x = qform A x + qform B x.
Proof. by rewrite /qform mulmxDr mulmxDl mxE. Qed.

Lemma qform_opp k (A : 'M[F]_k) x : qform (- A) x = - qform A x.
Proof. by rewrite /qform mulmxN mulNmx mxE. Qed.

Lemma qform_congr k j (A : 'M[F]_k) (B : 'M[F]_(j, k)) x : qform (B *m A *m B^T) x = qform A (B^T *m x).
Proof. by rewrite /qform trmx_mul trmxK !mulmxA. Qed.

Lemma posdef_psd k (A : 'M[F]_k) : posdef A -> psd A.
Proof.
  move=> H x. case: (eqVneq x 0) => [->|/H/ltW //]. by rewrite /qform mulmx0 mxE.
Qed.

Section One.
Variables n m : nat.
Variables (P : 'M[F]_n) (H : 'M[F]_(m, n)) (N : 'M[F]_m).
Hypothesis Psym : symmetric P.
Hypothesis Ppsd : psd P.
Hypothesis Nsym : symmetric N.
Hypothesis Npos : posdef N.
Let S := innov_cov P H N.
Let K := gain P H (invmx S).

Lemma S_posdef : posdef S.
Proof.
  move=> x Hx. rewrite /S /innov_cov qform_add.
  have -> : qform (H *m P *m H^T) x = qform P (H^T *m x) by exact: qform_congr.
  by apply: ltr_paddl; [apply: Ppsd | apply: Npos].
Qed.
Lemma S_unit : S \in unitmx.
Proof. exact: posdef_unit S_posdef. Qed.
Lemma N_unit : N \in unitmx.
Proof. exact: posdef_unit Npos. Qed.

Lemma S_sym : S^T = S.
Proof. by rewrite /S /innov_cov linearD /= !trmx_mul trmxK Psym Nsym mulmxA. Qed.

Lemma KS : K *m S = P *m H^T.
Proof. by rewrite /K /gain mulmxKV // S_unit. Qed.

Lemma KT : K^T = invmx S *m H *m P.
Proof. by rewrite /K /gain !trmx_mul trmxK trmx_inv S_sym Psym mulmxA. Qed.

Lemma KHP : K *m H *m P = K *m S *m K^T.
Proof. by rewrite KT -!mulmxA (mulmxA S) mulmxV ?S_unit // mul1mx !mulmxA. Qed.

Lemma P1_eq : (1%:M - K *m H) *m P = P - K *m S *m K^T.
Proof. by rewrite mulmxBl mul1mx KHP. Qed.

Lemma P1_sym : ((1%:M - K *m H) *m P)^T = (1%:M - K *m H) *m P.
Proof.
  rewrite P1_eq linearB /= Psym. congr (_ - _).
  have G (A : 'M[F]_(n, m)) : (A *m S *m A^T)^T = A *m S *m A^T by rewrite !trmx_mul trmxK S_sym mulmxA.
  exact: G.
Qed.

(** The symmetrisation changes nothing. *)
Lemma cov_eq : cov_updated P K H = (1%:M - K *m H) *m P.
Proof. by rewrite /cov_updated P1_sym half_double. Qed.

Lemma cov_sym : symmetric (cov_updated P K H).
Proof. by rewrite /symmetric cov_eq P1_sym. Qed.

(** Joseph's form *)
Lemma joseph : cov_updated P K H
  = (1%:M - K *m H) *m P *m (1%:M - K *m H)^T + K *m N *m K^T.
Proof.
  rewrite cov_eq.
  have -> : (1%:M - K *m H)^T = 1%:M - H^T *m K^T by rewrite linearB /= trmx1 trmx_mul.
  have EN : N = S - H *m P *m H^T by rewrite /S /innov_cov [_ + N]addrC addrK.
  rewrite mulmxBr mulmx1.
  have -> : K *m N *m K^T = K *m S *m K^T - K *m (H *m P *m H^T) *m K^T by rewrite {1}EN mulmxBr mulmxBl.
  have -> : (1%:M - K *m H) *m P *m (H^T *m K^T) = K *m S *m K^T - K *m (H *m P *m H^T) *m K^T.
  { by rewrite mulmxBl mul1mx mulmxBl !mulmxA KS. }
  by rewrite subrK.
Qed.

Lemma cov_psd : psd (cov_updated P K H).
Proof.
  move=> x. rewrite joseph qform_add !qform_congr.
  by apply: addr_ge0; [apply: Ppsd | apply: posdef_psd].
Qed.

Lemma cov_le : psd (P - cov_updated P K H).
Proof.
  move=> x. rewrite cov_eq P1_eq opprB addrC subrK qform_congr.
  exact: posdef_psd S_posdef _.
Qed.

Hypothesis Punit : P \in unitmx.

Lemma info_cov : cov_updated P K H *m (invmx P + H^T *m invmx N *m H) = 1%:M.
Proof.
  rewrite cov_eq mulmxDr mulmxK //.
  have EN : H *m P *m H^T = S - N by rewrite /S /innov_cov addrK.
  have -> : (1%:M - K *m H) *m P *m (H^T *m invmx N *m H) = K *m H.
  { have -> : (1%:M - K *m H) *m P *m (H^T *m invmx N *m H)
       = (P *m H^T - K *m (H *m P *m H^T)) *m invmx N *m H.
    { by rewrite !mulmxBl mul1mx !mulmxA. }
    by rewrite EN mulmxBr KS opprB addrC subrK mulmxK // N_unit. }
  by rewrite subrK.
Qed.

Lemma gain_info : K = cov_updated P K H *m (H^T *m invmx N).
Proof.
  have EN : H *m P *m H^T = S - N by rewrite /S /innov_cov addrK.
  rewrite cov_eq.
  have -> : (1%:M - K *m H) *m P *m (H^T *m invmx N) = (P *m H^T - K *m (H *m P *m H^T)) *m invmx N.
  { by rewrite !mulmxBl mul1mx !mulmxA. }
  by rewrite EN mulmxBr KS opprB addrC subrK mulmxK // N_unit.
Qed.

Lemma info_unit : cov_updated P K H \in unitmx.
Proof. by case/mulmx1_unit: info_cov. Qed.

Lemma info_inv : invmx (cov_updated P K H) = invmx P + H^T *m invmx N *m H.
Proof.
  by rewrite -[LHS]mulmx1 -info_cov mulmxA mulVmx ?info_unit // mul1mx.
Qed.

Lemma info_mean (x : 'cV[F]_n) (i : 'cV[F]_m) :
  invmx (cov_updated P K H) *m mean_updated x K i
  = invmx P *m x + H^T *m invmx N *m (i + H *m x).
Proof.
  rewrite /mean_updated mulmxDr.
  have -> : invmx (cov_updated P K H) *m (K *m i) = H^T *m invmx N *m i.
  { have -> : K *m i = cov_updated P K H *m (H^T *m invmx N *m i) by rewrite mulmxA -gain_info.
    by rewrite mulKmx // info_unit. }
  rewrite info_inv mulmxDl -addrA. congr (_ + _).
  by rewrite mulmxDr addrC !mulmxA.
Qed.
End One.

(** A sequence of corrections. *)
Lemma run_info n m (rs : seq (reading F n m)) (l : 'cV[F]_n * 'M[F]_n) :
  symmetric l.2 -> psd l.2 -> l.2 \in unitmx ->
  (forall r, List.In r rs -> symmetric (r_N r) /\ posdef (r_N r)) ->
  let f := run_lin rs l in
  [/\ symmetric f.2, psd f.2, f.2 \in unitmx,
      invmx f.2 = invmx l.2 + \sum_(r <- rs) info_mx r
    & invmx f.2 *m f.1 = invmx l.2 *m l.1 + \sum_(r <- rs) info_vec r].
Proof.
  elim: rs l => [|r rs IH] l Hs Hp Hu Hr /=.
  { by rewrite !big_nil !addr0. }
  have [Ns Np] := Hr r (or_introl erefl).
  have := IH (correct_lin l r).
  case.
  - exact: cov_sym.
  - exact: cov_psd.
  - exact: info_unit.
  - by move=> r' Hin; apply: Hr; right.
  - move=> H1 H2 H3 H4 H5. split=> //.
    + rewrite H4 big_cons addrA. congr (_ + _). exact: info_inv.
    + rewrite H5 big_cons addrA. congr (_ + _).
      rewrite /correct_lin /correct_mx /= info_mean //. congr (_ + _). congr (_ *m _).
      by rewrite opprD addrA addrAC subrK.
Qed.

End Proofs.

Lemma cov_bounds : forall (F : realFieldType) (n m : nat) (x : 'cV[F]_n) (P : 'M[F]_n)
    (H : 'M[F]_(m, n)) (N : 'M[F]_m) (i : 'cV[F]_m),
  symmetric P -> psd P -> symmetric N -> posdef N ->
  let P' := (correct_mx (x, P) H N i).2 in
  symmetric P' /\ forall v, 0 <= qform P' v /\ qform P' v <= qform P v.
Proof.
  move=> F n m x P H N i Ps Pp Ns Np /=. split; first exact: cov_sym.
  move=> v. split; first exact: cov_psd.
  have := cov_le H Ps Pp Ns Np v. by rewrite qform_add qform_opp subr_ge0.
Qed.

Lemma one_posdef (F : realFieldType) k : @posdef F k 1%:M.
Proof.
  move=> x Hx. rewrite /qform mulmx1 mxE. rewrite lt0r. apply/andP. split.
  - apply: contra Hx => /eqP E. apply/eqP/colP => j. rewrite mxE.
    have Hsq : forall j : 'I_k, true -> 0 <= x^T 0 j * x j 0 by move=> j' _; rewrite mxE -expr2 sqr_ge0.
    have := (psumr_eq0P Hsq E (i := j) isT). by rewrite mxE => /eqP; rewrite mulf_eq0 orbb => /eqP.
  - by apply: sumr_ge0 => j _; rewrite mxE -expr2 sqr_ge0.
Qed.

