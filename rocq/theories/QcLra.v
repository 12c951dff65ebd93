(** Linear arithmetic for canonical rationals: hypotheses and goals over [Qc] are
    carried over to [Q], where [lra] and [nra] apply.  Proof support only; models
    no code. *)
From Coq Require Import ZArith QArith Qcanon Lqa List.

Lemma this_plus : forall a b : Qc, (this (a + b)%Qc == this a + this b)%Q.
Proof. intros. apply Qred_correct. Qed.
Lemma this_mult : forall a b : Qc, (this (a * b)%Qc == this a * this b)%Q.
Proof. intros. apply Qred_correct. Qed.
Lemma this_opp : forall a : Qc, (this (- a)%Qc == - this a)%Q.
Proof. intros. apply Qred_correct. Qed.
Lemma this_minus : forall a b : Qc, (this (a - b)%Qc == this a - this b)%Q.
Proof. intros. unfold Qcminus. rewrite this_plus, this_opp. reflexivity. Qed.
Lemma this_Q2Qc : forall q : Q, (this (Q2Qc q) == q)%Q.
Proof. intros. apply Qred_correct. Qed.
Lemma this_eq : forall a b : Qc, a = b -> (this a == this b)%Q.
Proof. intros a b ->. reflexivity. Qed.

Ltac qc_push :=
  repeat match goal with
  | H : context [this (Qcplus ?a ?b)] |- _ => rewrite (this_plus a b) in H
  | H : context [this (Qcminus ?a ?b)] |- _ => rewrite (this_minus a b) in H
  | H : context [this (Qcmult ?a ?b)] |- _ => rewrite (this_mult a b) in H
  | H : context [this (Qcopp ?a)] |- _ => rewrite (this_opp a) in H
  | H : context [this (Q2Qc ?q)] |- _ => rewrite (this_Q2Qc q) in H
  | |- context [this (Qcplus ?a ?b)] => rewrite (this_plus a b)
  | |- context [this (Qcminus ?a ?b)] => rewrite (this_minus a b)
  | |- context [this (Qcmult ?a ?b)] => rewrite (this_mult a b)
  | |- context [this (Qcopp ?a)] => rewrite (this_opp a)
  | |- context [this (Q2Qc ?q)] => rewrite (this_Q2Qc q)
  end.

Ltac qc2q :=
  repeat match goal with
  | H : @eq Qc ?a ?b |- _ => apply this_eq in H
  | H : Qclt ?a ?b |- _ => change (this a < this b)%Q in H
  | H : Qcle ?a ?b |- _ => change (this a <= this b)%Q in H
  | H : Qcgt ?a ?b |- _ => change (this b < this a)%Q in H
  | H : Qcge ?a ?b |- _ => change (this b <= this a)%Q in H
  end;
  match goal with
  | |- @eq Qc ?a ?b => apply Qc_is_canon
  | |- Qclt ?a ?b => change (this a < this b)%Q
  | |- Qcle ?a ?b => change (this a <= this b)%Q
  | _ => idtac
  end;
  change (@this 0%Qc) with 0%Q in *; change (@this 1%Qc) with 1%Q in *; qc_push.

Ltac qclra := qc2q; lra.
Ltac qcnra := qc2q; nra.

Notation "x <= y < z" := (x <= y /\ y < z)%Qc : Qc_scope.
Notation "x < y <= z" := (x < y /\ y <= z)%Qc : Qc_scope.

Local Open Scope Qc_scope.

Definition Qcltb (a b : Qc) : bool := if Qclt_le_dec a b then true else false.
Definition Qcleb (a b : Qc) : bool := if Qclt_le_dec b a then false else true.

Lemma Qcltb_spec : forall a b, Bool.reflect (a < b) (Qcltb a b).
Proof. intros a b. unfold Qcltb. destruct (Qclt_le_dec a b); constructor; auto. now apply Qcle_not_lt. Qed.
Lemma Qcleb_spec : forall a b, Bool.reflect (a <= b) (Qcleb a b).
Proof. intros a b. unfold Qcleb. destruct (Qclt_le_dec b a); constructor; auto. now apply Qclt_not_le. Qed.
Lemma Qcltb_true : forall a b, Qcltb a b = true <-> a < b.
Proof. intros a b. destruct (Qcltb_spec a b); split; congruence || tauto. Qed.
Lemma Qcleb_true : forall a b, Qcleb a b = true <-> a <= b.
Proof. intros a b. destruct (Qcleb_spec a b); split; congruence || tauto. Qed.
Lemma Qcltb_false : forall a b, Qcltb a b = false <-> b <= a.
Proof. intros a b. destruct (Qcltb_spec a b) as [H|H]; split; intros; try discriminate.
  - exfalso. now apply Qclt_not_le in H.
  - now apply Qcnot_lt_le.
  - reflexivity. Qed.

(** Integers and naturals as rationals. *)
Definition QcZ (z : Z) : Qc := Q2Qc (inject_Z z).
Definition QcN (n : nat) : Qc := QcZ (Z.of_nat n).

Lemma QcZ_this : forall z, (this (QcZ z) == inject_Z z)%Q.
Proof. intros. apply this_Q2Qc. Qed.
Lemma QcZ_le : forall a b, (QcZ a <= QcZ b) <-> (a <= b)%Z.
Proof. intros. unfold Qcle. rewrite !QcZ_this. now rewrite <- Zle_Qle. Qed.
Lemma QcZ_lt : forall a b, (QcZ a < QcZ b) <-> (a < b)%Z.
Proof. intros. unfold Qclt. rewrite !QcZ_this. now rewrite <- Zlt_Qlt. Qed.
Lemma QcZ_add : forall a b, QcZ (a + b) = QcZ a + QcZ b.
Proof. intros. apply Qc_is_canon. rewrite this_plus, !QcZ_this. now rewrite inject_Z_plus. Qed.
Lemma QcZ_mul : forall a b, QcZ (a * b) = QcZ a * QcZ b.
Proof. intros. apply Qc_is_canon. rewrite this_mult, !QcZ_this. now rewrite inject_Z_mult. Qed.
Lemma QcZ_inj : forall a b, QcZ a = QcZ b -> a = b.
Proof. intros a b H. apply this_eq in H. rewrite !QcZ_this in H. now apply inject_Z_injective. Qed.
Lemma QcN_S : forall n, QcN (S n) = QcN n + 1.
Proof. intros. unfold QcN. rewrite Nat2Z.inj_succ, <- Z.add_1_r, QcZ_add. reflexivity. Qed.
Lemma QcN_0 : QcN 0 = 0.
Proof. reflexivity. Qed.
Lemma QcN_add : forall a b, QcN (a + b) = QcN a + QcN b.
Proof. intros. unfold QcN. now rewrite Nat2Z.inj_add, QcZ_add. Qed.
Lemma QcN_le : forall a b, (QcN a <= QcN b) <-> (a <= b)%nat.
Proof. intros. unfold QcN. rewrite QcZ_le. now rewrite <- Nat2Z.inj_le. Qed.
Lemma QcN_lt : forall a b, (QcN a < QcN b) <-> (a < b)%nat.
Proof. intros. unfold QcN. rewrite QcZ_lt. now rewrite <- Nat2Z.inj_lt. Qed.
Lemma QcN_nonneg : forall n, 0 <= QcN n.
Proof. intros n. rewrite <- QcN_0. apply QcN_le, Nat.le_0_l. Qed.

Lemma Qcdiv_mul : forall a b : Qc, b <> 0 -> a / b * b = a.
Proof. intros a b H. field; auto. Qed.
Lemma Qcpos_neq : forall a : Qc, 0 < a -> a <> 0.
Proof. intros a H ->. apply Qclt_not_eq in H. congruence. Qed.
Lemma Qcmul_le : forall a b c : Qc, 0 < c -> (a * c <= b * c <-> a <= b).
Proof. intros a b c Hc. split; intros H; qcnra. Qed.
Lemma Qcmul_lt : forall a b c : Qc, 0 < c -> (a * c < b * c <-> a < b).
Proof. intros a b c Hc. split; intros H; qcnra. Qed.
Lemma Qcdiv_le : forall a b c : Qc, 0 < c -> (a / c <= b <-> a <= b * c).
Proof. intros a b c Hc. rewrite <- (Qcmul_le (a / c) b c Hc), Qcdiv_mul by now apply Qcpos_neq. tauto. Qed.
Lemma Qcle_div : forall a b c : Qc, 0 < c -> (b <= a / c <-> b * c <= a).
Proof. intros a b c Hc. rewrite <- (Qcmul_le b (a / c) c Hc), Qcdiv_mul by now apply Qcpos_neq. tauto. Qed.
Lemma Qclt_div : forall a b c : Qc, 0 < c -> (b < a / c <-> b * c < a).
Proof. intros a b c Hc. rewrite <- (Qcmul_lt b (a / c) c Hc), Qcdiv_mul by now apply Qcpos_neq. tauto. Qed.
Lemma Qcdiv_lt : forall a b c : Qc, 0 < c -> (a / c < b <-> a < b * c).
Proof. intros a b c Hc. rewrite <- (Qcmul_lt (a / c) b c Hc), Qcdiv_mul by now apply Qcpos_neq. tauto. Qed.

Fixpoint qsum (l : list Qc) : Qc := match l with nil => 0 | cons x r => x + qsum r end.

Lemma qsum_app : forall a b, qsum (a ++ b) = qsum a + qsum b.
Proof. induction a as [|x a IH]; intros b; simpl; [ring|]. rewrite IH. ring. Qed.
Lemma qsum_nonneg : forall l, (forall x, In x l -> 0 <= x) -> 0 <= qsum l.
Proof. induction l as [|x l IH]; intros H; simpl; [apply Qcle_refl|].
  assert (0 <= x) by (apply H; now left). assert (0 <= qsum l) by (apply IH; intros; apply H; now right). qclra. Qed.
