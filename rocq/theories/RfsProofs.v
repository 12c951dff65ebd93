(** The association sum as a recursion over the rows; factorisation. *)
From Coq Require Import List Bool Arith QArith Qcanon Lia Permutation.
From Verif Require Import QcLra ListUtil PermanentSpec PermanentProofs EnumLemmas LexSpec RfsSpec.
Import ListNotations.
Local Open Scope Qc_scope.

Notation rm := (remove Nat.eq_dec).
Notation qsum := PermanentSpec.qsum.
Notation qsum_app := PermanentProofs.qsum_app.

Lemma qprod_nil : qprod [] = 1.
Proof. reflexivity. Qed.
Lemma qprod_cons : forall x l, qprod (x :: l) = x * qprod l.
Proof. reflexivity. Qed.
Lemma qsum_nil : qsum [] = 0.
Proof. reflexivity. Qed.
Lemma qsum_cons : forall x l, qsum (x :: l) = x + qsum l.
Proof. reflexivity. Qed.

Lemma qprod_app : forall a b, qprod (a ++ b) = qprod a * qprod b.
Proof.
  induction a as [|x a IH]; intros b; cbn [app].
  - rewrite qprod_nil. ring.
  - rewrite !qprod_cons, IH. ring.
Qed.
Lemma qprod_perm : forall a b, Permutation a b -> qprod a = qprod b.
Proof.
  induction 1 as [|x l l' P IH|x y l|l1 l2 l3 P1 IH1 P2 IH2]; rewrite ?qprod_cons; [reflexivity| | |congruence].
  - rewrite IH. reflexivity.
  - ring.
Qed.
Lemma qmul_nonneg : forall a b : Qc, 0 <= a -> 0 <= b -> 0 <= a * b.
Proof. intros. qcnra. Qed.
Lemma qprod_nonneg : forall l, (forall x, In x l -> 0 <= x) -> 0 <= qprod l.
Proof.
  induction l as [|x l IH]; intros H; [discriminate|]. rewrite qprod_cons.
  apply qmul_nonneg; [apply H; left; reflexivity|]. apply IH. intros y Hy. apply H. right. exact Hy.
Qed.

Lemma rm_perm2 : forall c l m, NoDup l -> Permutation l m -> Permutation (rm c l) (rm c m).
Proof.
  intros c l m N P. apply NoDup_Permutation.
  - apply remove_nodup. exact N.
  - apply remove_nodup. eapply Permutation_NoDup; eauto.
  - intros x. split; intros H; apply in_remove in H; destruct H as [H1 H2]; apply in_in_remove; auto.
    + eapply Permutation_in; eauto.
    + eapply Permutation_in; [apply Permutation_sym; exact P|exact H1].
Qed.

Lemma rm_comm : forall c d l, rm c (rm d l) = rm d (rm c l).
Proof. intros. apply remove_remove_comm. Qed.

Lemma rm_app : forall c a b, rm c (a ++ b) = rm c a ++ rm c b.
Proof. intros. apply remove_app. Qed.

Lemma qsum_plus : forall {X} (f g : X -> Qc) l, qsum (map (fun x => f x + g x) l) = qsum (map f l) + qsum (map g l).
Proof. induction l as [|x l IH]; cbn [map]; rewrite ?qsum_nil, ?qsum_cons; [ring|]. rewrite IH. ring. Qed.

Lemma qsum_exchange : forall (F : nat -> nat -> Qc) l,
  NoDup l ->
  qsum (map (fun c => qsum (map (F c) (rm c l))) l) = qsum (map (fun d => qsum (map (fun c => F c d) (rm d l))) l).
Proof.
  intros F l N.
  assert (A : forall (G : nat -> nat -> Qc) c, In c l -> qsum (map (G c) (rm c l)) = qsum (map (G c) l) - G c c).
  { intros G c Hc. rewrite (qsum_perm (map (G c) l) (map (G c) (c :: rm c l))).
    - cbn [map]. rewrite qsum_cons. ring.
    - apply Permutation_map. apply remove_perm; auto. }
  rewrite (qsum_ext (fun c => qsum (map (F c) (rm c l))) (fun c => qsum (map (F c) l) - F c c)) by (intros; apply A; auto).
  rewrite (qsum_ext (fun d => qsum (map (fun c => F c d) (rm d l))) (fun d => qsum (map (fun c => F c d) l) - F d d)).
  2:{ intros d Hd. apply (A (fun d c => F c d)). exact Hd. }
  rewrite <- (qsum_sub (fun c => qsum (map (F c) l)) (fun c => F c c)).
  rewrite <- (qsum_sub (fun d => qsum (map (fun c => F c d) l)) (fun c => F c c)). f_equal.
  assert (B : forall m, qsum (map (fun c => qsum (map (F c) m)) l) = qsum (map (fun d => qsum (map (fun c => F c d) l)) m)).
  { induction m as [|d m IH]; cbn [map]; rewrite ?qsum_cons.
    - apply (qsum_zero (fun _ => 0)). reflexivity.
    - rewrite <- IH. rewrite <- qsum_plus. reflexivity. }
  apply B.
Qed.

Section Alg.
Variable L : nat -> nat -> Qc.
Variables q cl : nat -> Qc.

Fixpoint asum (rows cols : list nat) : Qc :=
  match rows with
  | [] => qprod (map cl cols)
  | r :: rs => q r * asum rs cols + qsum (map (fun c => L r c * asum rs (rm c cols)) cols)
  end.

Lemma asum_cols : forall rows cols cols', NoDup cols -> Permutation cols cols' -> asum rows cols = asum rows cols'.
Proof.
  induction rows as [|r rs IH]; intros cols cols' N P; cbn [asum].
  - apply qprod_perm. apply Permutation_map. exact P.
  - rewrite (IH cols cols' N P). f_equal.
    rewrite (qsum_ext (fun c => L r c * asum rs (rm c cols)) (fun c => L r c * asum rs (rm c cols'))).
    + apply qsum_perm. apply Permutation_map. exact P.
    + intros c Hc. f_equal. apply IH; [apply remove_nodup; exact N|apply rm_perm2; auto].
Qed.

Lemma asum_swap : forall r s rs cols, NoDup cols -> asum (r :: s :: rs) cols = asum (s :: r :: rs) cols.
Proof.
  intros r s rs cols N. cbn [asum].
  assert (D : forall a b, qsum (map (fun c => L a c * (q b * asum rs (rm c cols) +
      qsum (map (fun d => L b d * asum rs (rm d (rm c cols))) (rm c cols)))) cols) =
    q b * qsum (map (fun c => L a c * asum rs (rm c cols)) cols) +
    qsum (map (fun c => qsum (map (fun d => L a c * L b d * asum rs (rm d (rm c cols))) (rm c cols))) cols)).
  { intros a b. rewrite <- qsum_scale, <- qsum_plus. apply qsum_ext. intros c Hc.
    rewrite (qsum_ext (fun d => L a c * L b d * asum rs (rm d (rm c cols)))
                      (fun d => L a c * (L b d * asum rs (rm d (rm c cols))))) by (intros; ring).
    rewrite qsum_scale. ring. }
  rewrite !D. rewrite (qsum_exchange (fun c d => L r c * L s d * asum rs (rm d (rm c cols))) cols N).
  rewrite (qsum_ext (fun d => qsum (map (fun c => L r c * L s d * asum rs (rm d (rm c cols))) (rm d cols)))
    (fun c => qsum (map (fun d => L s c * L r d * asum rs (rm d (rm c cols))) (rm c cols)))).
  - ring.
  - intros d Hd. apply qsum_ext. intros c Hc. rewrite rm_comm. ring.
Qed.

Lemma asum_rows : forall rows rows', Permutation rows rows' -> forall cols, NoDup cols ->
  asum rows cols = asum rows' cols.
Proof.
  induction 1 as [|x l l' P IH|x y l|l1 l2 l3 P1 IH1 P2 IH2]; intros cols N.
  - reflexivity.
  - cbn [asum]. rewrite (IH cols N). f_equal. apply qsum_ext. intros c Hc. rewrite IH; [reflexivity|].
    apply remove_nodup. exact N.
  - apply asum_swap. exact N.
  - rewrite (IH1 cols N). auto.
Qed.

Lemma nodup_app_l : forall (a b : list nat), NoDup (a ++ b) -> NoDup a.
Proof. induction a as [|x a IH]; intros b H; [constructor|]. inversion H; subst. constructor; [intros K; apply H2, in_or_app; auto|eauto]. Qed.
Lemma nodup_app_r : forall (a b : list nat), NoDup (a ++ b) -> NoDup b.
Proof. induction a as [|x a IH]; intros b H; [exact H|]. inversion H; subst. auto. Qed.
Lemma nodup_app_disj : forall (a b : list nat) x, NoDup (a ++ b) -> In x a -> In x b -> False.
Proof.
  induction a as [|y a IH]; intros b x H Ha Hb; [destruct Ha|].
  destruct Ha as [->|Ha]; inversion H; subst.
  - apply H2. apply in_or_app. auto.
  - eauto.
Qed.

Lemma asum_dead : forall rows c1 c2, NoDup (c1 ++ c2) -> (forall r c, In r rows -> In c c1 -> L r c = 0) ->
  asum rows (c1 ++ c2) = qprod (map cl c1) * asum rows c2.
Proof.
  induction rows as [|r rs IH]; intros c1 c2 N Z; cbn [asum].
  - rewrite map_app, qprod_app. reflexivity.
  - rewrite (IH c1 c2 N) by (intros; apply Z; auto; right; auto).
    rewrite map_app, qsum_app.
    rewrite (qsum_zero (fun c => L r c * asum rs (rm c (c1 ++ c2))) c1).
    2:{ intros c Hc. rewrite (Z r c (or_introl eq_refl) Hc). ring. }
    rewrite (qsum_ext (fun c => L r c * asum rs (rm c (c1 ++ c2)))
               (fun c => qprod (map cl c1) * (L r c * asum rs (rm c c2))) c2).
    + rewrite qsum_scale. ring.
    + intros c Hc. rewrite rm_app. rewrite (notin_remove _ c1 c).
      2:{ intros Hc1. exact (nodup_app_disj c1 c2 c N Hc1 Hc). }
      rewrite IH.
      * ring.
      * replace (c1 ++ rm c c2) with (rm c (c1 ++ c2)); [apply remove_nodup; exact N|].
        rewrite rm_app, (notin_remove _ c1 c); [reflexivity|].
        intros Hc1. exact (nodup_app_disj c1 c2 c N Hc1 Hc).
      * intros; apply Z; auto. right; auto.
Qed.

Lemma asum_factor : forall r1 r2 c1 c2, NoDup (c1 ++ c2) ->
  (forall r c, In r r1 -> In c c2 -> L r c = 0) -> (forall r c, In r r2 -> In c c1 -> L r c = 0) ->
  asum (r1 ++ r2) (c1 ++ c2) = asum r1 c1 * asum r2 c2.
Proof.
  induction r1 as [|r rs IH]; intros r2 c1 c2 N Z1 Z2; cbn [app].
  - cbn [asum]. apply asum_dead; assumption.
  - cbn [asum]. rewrite (IH r2 c1 c2 N) by (auto; intros; apply Z1; auto; right; auto).
    rewrite map_app, qsum_app.
    rewrite (qsum_zero (fun c => L r c * asum (rs ++ r2) (rm c (c1 ++ c2))) c2).
    2:{ intros c Hc. rewrite (Z1 r c (or_introl eq_refl) Hc). ring. }
    rewrite (qsum_ext (fun c => L r c * asum (rs ++ r2) (rm c (c1 ++ c2)))
               (fun c => asum r2 c2 * (L r c * asum rs (rm c c1))) c1).
    + rewrite qsum_scale. ring.
    + intros c Hc.
      assert (E : rm c (c1 ++ c2) = rm c c1 ++ c2).
      { rewrite rm_app, (notin_remove _ c2 c); [reflexivity|].
        intros Hc2. exact (nodup_app_disj c1 c2 c N Hc Hc2). }
      rewrite E, IH.
      * ring.
      * rewrite <- E. apply remove_nodup. exact N.
      * intros; apply Z1; auto. right; auto.
      * intros r0 c0 H0 H1. apply in_remove in H1. apply Z2; tauto.
Qed.

(** A list of blocks without entries between them. *)
Lemma asum_blocks : forall (b : nat -> list nat * list nat) ps,
  NoDup (flat_map (fun p => snd (b p)) ps) -> NoDup ps ->
  (forall p p' r c, In p ps -> In p' ps -> p <> p' -> In r (fst (b p)) -> In c (snd (b p')) -> L r c = 0) ->
  asum (flat_map (fun p => fst (b p)) ps) (flat_map (fun p => snd (b p)) ps) =
  qprod (map (fun p => asum (fst (b p)) (snd (b p))) ps).
Proof.
  intros b. induction ps as [|p ps IH]; intros N Np Z; cbn [flat_map map]; rewrite ?qprod_cons.
  - reflexivity.
  - inversion Np; subst. cbn [flat_map] in N.
    rewrite asum_factor; [|exact N| |].
    + f_equal. apply IH; [eapply nodup_app_r; exact N|assumption|].
      intros p1 p2 r c H H'. apply Z; right; assumption.
    + intros r c Hr Hc. apply in_flat_map in Hc. destruct Hc as (p' & Hp' & Hc).
      apply (Z p p'); auto; [left; reflexivity|right; exact Hp'|intros ->; contradiction].
    + intros r c Hr Hc. apply in_flat_map in Hr. destruct Hr as (p' & Hp' & Hr).
      apply (Z p' p); auto; [right; exact Hp'|left; reflexivity|intros ->; contradiction].
Qed.
End Alg.

Lemma asum_ext : forall L L' q q' cl cl' rows cols,
  (forall r c, In r rows -> In c cols -> L r c = L' r c) -> (forall r, In r rows -> q r = q' r) ->
  (forall c, In c cols -> cl c = cl' c) -> asum L q cl rows cols = asum L' q' cl' rows cols.
Proof.
  intros L L' q q' cl cl'. induction rows as [|r rs IH]; intros cols HL Hq Hc; cbn [asum].
  - f_equal. apply map_ext_in. exact Hc.
  - rewrite (Hq r (or_introl eq_refl)), (IH cols); [|intros; apply HL; auto; right; auto|intros; apply Hq; right; auto|exact Hc].
    f_equal. apply qsum_ext. intros c Hin. rewrite (HL r c (or_introl eq_refl) Hin). f_equal.
    apply IH; [intros r0 c0 H0 H1; apply HL; [right; auto|]|intros; apply Hq; right; auto|intros c0 H0; apply Hc];
      (apply in_remove in H1 || apply in_remove in H0); tauto.
Qed.

Lemma rm_map : forall (h : nat -> nat) c cols, (forall x y, In x (c :: cols) -> In y (c :: cols) -> h x = h y -> x = y) ->
  rm (h c) (map h cols) = map h (rm c cols).
Proof.
  intros h c cols. induction cols as [|d cols IH]; intros I; [reflexivity|].
  cbn [map remove]. rewrite IH.
  2:{ intros x y Hx Hy. apply I; [destruct Hx; [left|right; right]|destruct Hy; [left|right; right]]; assumption. }
  destruct (Nat.eq_dec c d) as [->|Hne].
  - destruct (Nat.eq_dec (h d) (h d)); congruence.
  - destruct (Nat.eq_dec (h c) (h d)) as [E|]; [|reflexivity].
    exfalso. apply Hne. apply I; [left; reflexivity|right; left; reflexivity|exact E].
Qed.

Lemma asum_map : forall L q cl (f h : nat -> nat) rows cols,
  (forall x y, In x cols -> In y cols -> h x = h y -> x = y) ->
  asum (fun r c => L (f r) (h c)) (fun r => q (f r)) (fun c => cl (h c)) rows cols =
  asum L q cl (map f rows) (map h cols).
Proof.
  intros L q cl f h. induction rows as [|r rs IH]; intros cols I; cbn [asum map].
  - rewrite map_map. reflexivity.
  - rewrite (IH cols I). f_equal. rewrite map_map. apply qsum_ext. intros c Hc. f_equal.
    rewrite rm_map.
    + apply IH. intros x y Hx Hy. apply in_remove in Hx, Hy. apply I; tauto.
    + intros x y Hx Hy. apply I; [destruct Hx as [<-|Hx]|destruct Hy as [<-|Hy]]; auto.
Qed.
