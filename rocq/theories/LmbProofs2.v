(** One partition of the map update. *)
From Coq Require Import ZArith List Bool Arith QArith Qcanon Lia Permutation Sorted.
From Verif Require Import Base ListUtil QcLra Loop PermanentSpec PermanentProofs EnumLemmas AssignSpec PartitionModel PartitionSpec
  LexModel LexSpec LexProofs2 RfsModel RfsSpec RfsProofs RfsProofs2 RfsProofs3 RfsProofs4 LmbModel LmbSpec LmbEvents LmbProofs.
Import ListNotations.
Local Open Scope Qc_scope.

Lemma qprod_but : forall (f g : nat -> Qc) r x l, NoDup l -> In r l -> g r = f r * x ->
  (forall a, In a l -> a <> r -> g a = f a) -> qprod (map g l) = qprod (map f l) * x.
Proof.
  intros f g r x. induction l as [|a l IH]; intros N Hr E H; [destruct Hr|].
  inversion N; subst. cbn [map]. rewrite !qprod_cons. destruct Hr as [->|Hr].
  - rewrite E, (map_ext_in g f l); [ring|]. intros b Hb. apply H; [right; exact Hb|intros ->; contradiction].
  - rewrite (IH H3 Hr E); [|intros b Hb; apply H; right; exact Hb].
    rewrite (H a (or_introl eq_refl)); [ring|]. intros ->. contradiction.
Qed.

Lemma sum_full : forall (f : list nat -> Qc) hs gs, NoDup hs -> NoDup gs -> incl hs gs ->
  (forall h, In h gs -> ~ In h hs -> f h = 0) -> qsum (map f gs) = qsum (map f hs).
Proof.
  intros f hs gs N1 N2 I H. set (P := fun h => if in_dec (list_eq_dec Nat.eq_dec) h hs then true else false).
  rewrite <- (qsum_filter f P gs).
  - apply qsum_perm, Permutation_map, NoDup_Permutation; [apply NoDup_filter; exact N2|exact N1|].
    intros h. rewrite filter_In. unfold P. destruct (in_dec _ h hs) as [K|K]; split; intros X; try tauto.
    + split; [apply I; exact K|reflexivity].
    + destruct X; discriminate.
  - intros h Hh. unfold P. destruct (in_dec _ h hs); [discriminate|]. intros _. apply H; auto.
Qed.

Lemma asum_nonneg : forall L q cl, (forall r c, 0 <= L r c) -> (forall r, 0 <= q r) -> (forall c, 0 <= cl c) ->
  forall rows cols, 0 <= asum L q cl rows cols /\ qprod (map q rows) * qprod (map cl cols) <= asum L q cl rows cols.
Proof.
  intros L q cl HL Hq Hc. induction rows as [|r rs IH]; intros cols; cbn [asum map].
  - rewrite qprod_nil. assert (K := prod_nonneg_map cl cols Hc). split; [exact K|]. qclra.
  - rewrite qprod_cons. destruct (IH cols) as [I1 I2].
    assert (K : 0 <= qsum (map (fun c => L r c * asum L q cl rs (rm c cols)) cols)).
    { apply qsum_nonneg. intros x Hx. apply in_map_iff in Hx. destruct Hx as (c & <- & _).
      apply qmul_nonneg; [apply HL|apply IH]. }
    assert (K2 := qmul_nonneg (q r) _ (Hq r) I1). split; [qclra|].
    assert (K3 : 0 <= q r * (asum L q cl rs cols - qprod (map q rs) * qprod (map cl cols))).
    { apply qmul_nonneg; [apply Hq|]. qclra. }
    assert (K4 : q r * (asum L q cl rs cols - qprod (map q rs) * qprod (map cl cols)) =
                 q r * asum L q cl rs cols - q r * qprod (map q rs) * qprod (map cl cols)) by ring.
    rewrite K4 in K3. qclra.
Qed.

Lemma qprod_pos : forall l, (forall x, In x l -> 0 < x) -> 0 < qprod l.
Proof.
  induction l as [|x l IH]; intros H; [rewrite qprod_nil; qclra|]. rewrite qprod_cons.
  assert (A := H x (or_introl eq_refl)). assert (B := IH (fun y Hy => H y (or_intror Hy))). qcnra.
Qed.

Lemma qsum_pos : forall {X} (f : X -> Qc) l x, (forall y, In y l -> 0 <= f y) -> In x l -> 0 < f x -> 0 < qsum (map f l).
Proof.
  intros X f. induction l as [|a l IH]; intros x H Hx Hp; [destruct Hx|]. cbn [map]. rewrite qsum_cons.
  assert (A := H a (or_introl eq_refl)). assert (H' := fun y Hy => H y (or_intror Hy)).
  destruct Hx as [->|Hx].
  - assert (B : 0 <= qsum (map f l)).
    { apply qsum_nonneg. intros y Hy. apply in_map_iff in Hy. destruct Hy as (b & <- & Hb). auto. }
    qclra.
  - assert (B := IH x H' Hx Hp). qclra.
Qed.
Lemma qsum_map_nonneg : forall {X} (f : X -> Qc) l, (forall y, In y l -> 0 <= f y) -> 0 <= qsum (map f l).
Proof.
  intros X f l H. apply qsum_nonneg. intros y Hy. apply in_map_iff in Hy. destruct Hy as (b & <- & Hb). auto.
Qed.

Lemma qsum_le : forall {X} (f g : X -> Qc) l, (forall x, In x l -> f x <= g x) -> qsum (map f l) <= qsum (map g l).
Proof.
  intros X f g. induction l as [|x l IH]; intros H; cbn [map]; rewrite ?qsum_nil, ?qsum_cons; [apply Qcle_refl|].
  assert (A := H x (or_introl eq_refl)). assert (B := IH (fun y Hy => H y (or_intror Hy))). qclra.
Qed.

Section Block.
Context {G : Type}.
Variable correct : nat -> G -> option (G * Qc).
Variable clutter : nat -> Qc.
Variable thr : Qc.
Variable nZ : nat.
Variable kbest : nat -> nat -> (nat -> nat -> Qc) -> list (list nat).
Variable vs : list (view G).
Notation at_ := (at_ vs).
Notation missed_pd := (missed_pd vs).
Notation lmbL := (lmbL correct clutter thr vs).
Notation mixture := (mixture correct clutter).
Hypothesis Hthr : 0 <= thr.
Hypothesis Hclut : forall z, (z < nZ)%nat -> 0 < clutter z.
Hypothesis Hlik : forall z g g' l, correct z g = Some (g', l) -> 0 <= l.
Hypothesis Hk : kbest_contract kbest.

(** What is known of the tracks in view. *)
Definition fine (v : view G) : Prop :=
  0 <= vPd v <= 1 /\ vPe v = tP (vT v) /\ (0 <= tP (vT v) <= 1 /\ (forall w g, In (w, g) (tG (vT v)) -> 0 <= w) /\ 0 < qsum (map fst (tG (vT v))) <= 1) /\
  vPd v * vPe v < 1.
Hypothesis Hfine : forall v, In v vs -> fine v.

Lemma at_in : forall i, (i < length vs)%nat -> In (at_ i) vs.
Proof using. intros i Hi. apply nth_In. exact Hi. Qed.

Lemma vtrack_pd : forall i, 0 <= vPd (at_ i) <= 1 /\ 0 <= vPe (at_ i) <= 1 /\ missed_pd i < 1 /\ 0 <= missed_pd i.
Proof using Hfine.
  intros i. unfold LmbModel.missed_pd. destruct (Nat.lt_ge_cases i (length vs)) as [Hi|Hi].
  - destruct (Hfine _ (at_in i Hi)) as (A & B & (C & _) & D). rewrite <- B in C.
    split; [exact A|]. split; [exact C|]. split; [exact D|]. apply qmul_nonneg; tauto.
  - unfold LmbModel.at_. rewrite nth_overflow by exact Hi. cbn [vPd vPe].
    split; [split; qclra|]. split; [split; qclra|]. split; [|qclra]. replace (0 * 0) with 0 by ring. qclra.
Qed.

Definition q (i : nat) : Qc := 1 - missed_pd i.
Definition miss (i : nat) : Qc := vPe (at_ i) * (1 - vPd (at_ i)).

Lemma q_pos : forall i, 0 < q i.
Proof using Hfine. intros i. destruct (vtrack_pd i) as (_ & _ & A & _). unfold q. qclra. Qed.
Lemma q_neq : forall i, q i <> 0.
Proof using Hfine. intros i. apply Qcpos_neq, q_pos. Qed.
Lemma miss_nonneg : forall i, 0 <= miss i.
Proof using Hfine. intros i. destruct (vtrack_pd i) as (A & B & _). apply qmul_nonneg; [tauto|]. destruct A. qclra. Qed.
Lemma miss_le : forall i, miss i <= q i.
Proof using Hfine.
  intros i. destruct (vtrack_pd i) as (A & B & _). unfold q, miss, LmbModel.missed_pd.
  destruct A, B. qcnra.
Qed.
Lemma ratio_ok : forall i, ratio vs i * q i = miss i /\ 0 <= ratio vs i <= 1.
Proof using Hfine.
  intros i. unfold ratio. fold (q i). fold (miss i).
  assert (A := q_pos i). assert (B := miss_nonneg i). assert (C := miss_le i). split; [apply Qcdiv_mul, q_neq|]. split.
  - apply Qcle_div; [exact A|]. replace (0 * q i) with 0 by ring. exact B.
  - apply Qcdiv_le; [exact A|]. replace (1 * q i) with (q i) by ring. exact C.
Qed.

Lemma L_nonneg : forall i z, 0 <= lmbL i z.
Proof using Hthr.
  intros i z. unfold LmbModel.lmbL, entry. destruct (i <? length vs); [|apply Qcle_refl].
  destruct (Qcltb thr _) eqn:E; [|apply Qcle_refl]. apply Qcltb_true in E. qclra.
Qed.

Lemma mixture_nonneg : forall i z w g, (i < length vs)%nat -> (z < nZ)%nat -> In (w, g) (mixture (at_ i) z) -> 0 <= w.
Proof using Hclut Hlik Hfine.
  intros i z w g Hi Hz H. unfold LmbModel.mixture in H. apply in_flat_map in H. destruct H as ([w0 g0] & H0 & H).
  cbn [fst snd] in H. destruct (correct z g0) as [[g' l]|] eqn:E; [|destruct H]. destruct H as [H|[]].
  injection H as <- <-. destruct (Hfine _ (at_in i Hi)) as (A & _ & (_ & B & _) & _).
  apply Hlik in E. apply B in H0. apply Qcle_div; [apply Hclut; exact Hz|]. replace (0 * clutter z) with 0 by ring.
  apply qmul_nonneg; [apply qmul_nonneg; assumption|tauto].
Qed.

Lemma L_mixture : forall i z, (0 < lmbL i z) -> (i < length vs)%nat /\ 0 < qsum (map fst (mixture (at_ i) z)) /\ 0 < vPe (at_ i).
Proof using Hthr Hfine.
  intros i z H. unfold LmbModel.lmbL, entry in H. destruct (Nat.ltb_spec i (length vs)) as [Hi|Hi]; [|exfalso; revert H; apply Qcle_not_lt, Qcle_refl].
  split; [exact Hi|]. rewrite fold_plus0 in H.
  destruct (Qcltb thr _) eqn:E; [|exfalso; revert H; apply Qcle_not_lt, Qcle_refl].
  set (s := qsum _) in *. destruct (vtrack_pd i) as (_ & B & _).
  set (p := vPe (at_ i)) in *. clearbody s p.
  assert (Hp : 0 < p).
  { destruct B as [B _]. apply Qcle_lt_or_eq in B. destruct B as [B|B]; [exact B|]. rewrite <- B in H.
    replace (s * 0) with 0 in H by ring. exfalso. revert H. apply Qcle_not_lt, Qcle_refl. }
  split; [|exact Hp]. destruct (Qclt_le_dec 0 s) as [K|K]; [exact K|]. exfalso. revert H. apply Qcle_not_lt. qcnra.
Qed.

Section Rows.
Variables il jl : list nat.
Notation nR := (length il).
Notation nC := (length jl).
Notation hw := (hyp_weight nR nC (fun a b => lmbL (nth a il 0%nat) (nth b jl 0%nat))
                  (fun a => missed_pd (nth a il 0%nat)) (fun b => 1)).
Notation "'row' r" := (nth r il 0%nat) (at level 10).
Hypothesis Nil : NoDup il.
Hypothesis Njl : NoDup jl.
Hypothesis Hil : forall i, In i il -> (i < length vs)%nat.
Hypothesis Hjl : forall z, In z jl -> (z < nZ)%nat.

Lemma hwn : forall h, 0 <= hw h.
Proof using Hthr Hfine.
  intros h. apply (hw_nonneg lmbL missed_pd (fun _ => 1) il jl); [apply L_nonneg| |intros; qclra].
  intros r. destruct (vtrack_pd r) as (_ & _ & A & _). qclra.
Qed.

Lemma hw_rows : forall h, hw h = qprod (map (fun m => if Nat.ltb (nth m h 0%nat) nC then lmbL (row m) (nth (nth m h 0%nat) jl 0%nat) else q (row m)) (seq 0 nR)).
Proof using. intros h. unfold hyp_weight. rewrite ones. unfold q. ring. Qed.

Lemma qprod_zero : forall l, In 0 l -> qprod l = 0.
Proof using.
  induction l as [|x l IH]; intros H; [destruct H|]. rewrite qprod_cons. destruct H as [->|H]; [ring|].
  rewrite (IH H). ring.
Qed.

(** An assigned pair of a hypothesis of positive weight has a positive likelihood. *)
Lemma hw_pair : forall h r, (r < nR)%nat -> hw h <> 0 -> Nat.ltb (nth r h 0%nat) nC = true ->
  0 < lmbL (row r) (nth (nth r h 0%nat) jl 0%nat).
Proof using Hthr.
  intros h r Hr H El. assert (K := L_nonneg (row r) (nth (nth r h 0%nat) jl 0%nat)). apply Qcle_lt_or_eq in K.
  destruct K as [K|K]; [exact K|]. exfalso. apply H. rewrite hw_rows. apply qprod_zero. apply in_map_iff.
  exists r. rewrite El, <- K. split; [reflexivity|]. apply in_seq. lia.
Qed.

Definition none : list nat := repeat nC nR.
Definition only (r b : nat) : list nat := upd none r b.

Lemma none_assoc : association nR nC true none.
Proof using.
  unfold none. split; [apply repeat_length|]. split.
  - intros v Hv. apply repeat_spec in Hv. auto.
  - intros i j v Hv Hi. apply nth_error_In, repeat_spec in Hi. lia.
Qed.
Lemma none_pos : hw none <> 0.
Proof using Hfine.
  rewrite hw_rows. apply Qcpos_neq, qprod_pos. intros x Hx. apply in_map_iff in Hx. destruct Hx as (m & <- & Hm).
  apply in_seq in Hm. unfold none. rewrite (nth_indep _ 0%nat nC) by (rewrite repeat_length; lia). rewrite nth_repeat, Nat.ltb_irrefl. apply q_pos.
Qed.

Lemma only_nth : forall r b a, (r < nR)%nat -> (a < nR)%nat -> nth a (only r b) 0%nat = if Nat.eqb a r then b else nC.
Proof using.
  intros r b a Hr Ha. apply nth_error_nth. unfold only. destruct (Nat.eqb_spec a r) as [->|Hne].
  - apply nth_error_upd_eq. unfold none. rewrite repeat_length. exact Hr.
  - rewrite nth_error_upd_neq by auto. unfold none. apply nth_error_repeat. exact Ha.
Qed.
Lemma only_assoc : forall r b, (r < nR)%nat -> (b < nC)%nat -> association nR nC true (only r b).
Proof using.
  intros r b Hr Hb. assert (Hl : length (only r b) = nR) by (unfold only, none; rewrite upd_length, repeat_length; reflexivity).
  assert (V : forall i v, nth_error (only r b) i = Some v -> v = if Nat.eqb i r then b else nC).
  { intros i v Hi. assert (Hi' : (i < length (only r b))%nat) by (apply nth_error_Some; congruence). rewrite Hl in Hi'.
    rewrite <- (only_nth r b i Hr Hi'). symmetry. apply nth_error_nth. exact Hi. }
  split; [exact Hl|]. split.
  - intros v Hv. apply In_nth_error in Hv. destruct Hv as [i Hi]. apply V in Hi.
    destruct (Nat.eqb i r); subst; auto.
  - intros i j v Hv Hi Hj. apply V in Hi. apply V in Hj.
    destruct (Nat.eqb_spec i r), (Nat.eqb_spec j r); subst; try reflexivity; lia.
Qed.
Lemma only_pos : forall r b, (r < nR)%nat -> (b < nC)%nat -> 0 < lmbL (row r) (nth b jl 0%nat) -> hw (only r b) <> 0.
Proof using Hfine.
  intros r b Hr Hb HL. rewrite hw_rows. apply Qcpos_neq, qprod_pos. intros x Hx. apply in_map_iff in Hx. destruct Hx as (m & <- & Hm).
  apply in_seq in Hm. rewrite (only_nth r b m) by lia. destruct (Nat.eqb_spec m r) as [->|].
  - apply Nat.ltb_lt in Hb. rewrite Hb. exact HL.
  - rewrite Nat.ltb_irrefl. apply q_pos.
Qed.

Notation sh := (LmbProofs.sh vs il jl).
Notation tgt := (LmbProofs.tgt nZ jl).

Lemma sh_01 : forall r h, 0 <= sh r h <= 1.
Proof using Hfine.
  intros r h. unfold LmbProofs.sh. destruct (Nat.ltb _ _); [split; qclra|]. apply ratio_ok.
Qed.

(** Hypotheses in which row r counts as existing. *)
Definition pdx (x i : nat) : Qc := if Nat.eqb i x then 1 - miss x else missed_pd i.

Lemma hw_sh : forall r h, (r < nR)%nat -> hw h * sh r h =
  hyp_weight nR nC (fun a b => lmbL (nth a il 0%nat) (nth b jl 0%nat)) (fun a => pdx (row r) (row a)) (fun b => 1) h.
Proof using Hfine Nil.
  intros r h Hr. unfold hyp_weight. rewrite ones, !Qcmult_1_r. symmetry.
  apply (qprod_but _ _ r (sh r h)); [apply seq_NoDup|apply in_seq; lia| |].
  - cbv beta. unfold LmbProofs.sh, pdx. rewrite Nat.eqb_refl. destruct (Nat.ltb _ _); [ring|].
    destruct (ratio_ok (row r)) as [E _]. change (1 - missed_pd (row r)) with (q (row r)). rewrite Qcmult_comm, E. ring.
  - intros a Ha Hne. cbv beta. apply in_seq in Ha. destruct (Nat.ltb _ _); [reflexivity|]. unfold pdx.
    destruct (Nat.eqb_spec (row a) (row r)) as [E|E]; [|reflexivity].
    exfalso. apply Hne. apply (proj1 (NoDup_nth il 0%nat) Nil); lia || exact E.
Qed.

Variable hs : list (list nat).
Variables a0 a1 : acc.
Hypothesis Nhs : NoDup hs.
Hypothesis Ahs : forall h, In h hs -> association nR nC true h.
Hypothesis Hsum : sumup correct clutter thr nZ vs il jl hs a0 a1.
Hypothesis Hpos : exists h, In h hs /\ hw h <> 0.
Hypothesis Zpl : pl a0 = 0.
Hypothesis Z0 : forall i, In i il -> upe a0 i = 0 /\ forall z, mw a0 i z = 0.
Definition full : Prop := forall h, association nR nC true h -> hw h <> 0 -> In h hs.
Notation total := (qsum (map hw hs)).

Lemma pl_total : pl a1 = total /\ 0 < total.
Proof using Hthr Hfine Hsum Hpos Zpl.
  destruct Hsum as (A & _). split; [rewrite A, Zpl; ring|]. destruct Hpos as (h & Hh & Hn).
  apply (qsum_pos _ _ h); [intros; apply hwn|exact Hh|]. assert (K := hwn h). apply Qcle_lt_or_eq in K.
  destruct K as [K|K]; [exact K|congruence].
Qed.

Lemma upe_val : forall r, (r < nR)%nat -> upe a1 (row r) = qsum (map (fun h => hw h * sh r h) hs) /\
  0 <= upe a1 (row r) <= pl a1.
Proof using Hthr Hfine Hsum Hpos Zpl Z0.
  intros r Hr. destruct pl_total as [Hpl _]. destruct Hsum as (_ & A & _).
  assert (E : upe a1 (row r) = qsum (map (fun h => hw h * sh r h) hs)).
  { rewrite (A r Hr), (proj1 (Z0 (row r) (nth_In _ _ Hr))). ring. }
  split; [exact E|]. rewrite E, Hpl. split.
  - apply qsum_map_nonneg. intros h _. apply qmul_nonneg; [apply hwn|apply sh_01].
  - apply qsum_le. intros h _. assert (B := hwn h). destruct (sh_01 r h) as [C D]. set (x := hw h) in *. set (y := sh r h) in *. clearbody x y. qcnra.
Qed.

Lemma full_sums : full -> block_sum lmbL missed_pd (fun _ => 1) il jl total /\
  forall r, (r < nR)%nat -> block_sum lmbL (pdx (row r)) (fun _ => 1) il jl (upe a1 (row r)).
Proof using Hthr Hfine Hsum Hpos Zpl Z0 Nil Nhs Ahs Njl.
  intros F.
  destruct (proj2 (block_sum_iff lmbL missed_pd (fun _ => 1) il jl _ Njl) eq_refl) as (gs & G1 & G2 & G3).
  split.
  - exists gs. split; [exact G1|]. split; [exact G2|]. symmetry. apply sum_full; auto.
    + intros h Hh. apply G2, Ahs. exact Hh.
    + intros h Hh Hn. destruct (Qc_eq_dec (hw h) 0) as [E|E]; [exact E|]. exfalso. apply Hn, F; [apply G2; exact Hh|exact E].
  - intros r Hr. exists gs. split; [exact G1|]. split; [exact G2|]. rewrite (proj1 (upe_val r Hr)).
    rewrite (qsum_ext (fun h => hw h * sh r h) _ hs (fun h _ => hw_sh r h Hr)). symmetry. apply sum_full; auto.
    + intros h Hh. apply G2, Ahs. exact Hh.
    + intros h Hh Hn. rewrite <- hw_sh by exact Hr. destruct (Qc_eq_dec (hw h) 0) as [E|E]; [rewrite E; ring|].
      exfalso. apply Hn, F; [apply G2; exact Hh|exact E].
Qed.

Lemma mw_val : forall r z, (r < nR)%nat -> mw a1 (row r) z = qsum (map (fun h => if Nat.eqb (tgt r h) z then hw h * sh r h else 0) hs).
Proof using Hsum Z0.
  intros r z Hr. destruct Hsum as (_ & _ & A & _). rewrite (A r z Hr), (proj2 (Z0 (row r) (nth_In _ _ Hr))). ring.
Qed.
Lemma mw_term : forall r z h, 0 <= (if Nat.eqb (tgt r h) z then hw h * sh r h else 0).
Proof using Hthr Hfine.
  intros r z h. destruct (Nat.eqb _ _); [|apply Qcle_refl]. apply qmul_nonneg; [apply hwn|apply sh_01].
Qed.
Lemma mw_nonneg : forall r z, (r < nR)%nat -> 0 <= mw a1 (row r) z.
Proof using Hthr Hfine Hsum Z0.
  intros r z Hr. rewrite (mw_val r z Hr). apply qsum_map_nonneg. intros h _. apply mw_term.
Qed.
Lemma mw_zero : forall r z, (r < nR)%nat -> (z < nZ)%nat -> lmbL (row r) z = 0 -> mw a1 (row r) z = 0.
Proof using Hthr Hsum Z0 Hjl.
  intros r z Hr Hz HL. rewrite (mw_val r z Hr). apply qsum_zero. intros h Hh.
  destruct (Nat.eqb_spec (tgt r h) z) as [E|E]; [|reflexivity]. unfold LmbProofs.tgt in E.
  destruct (Nat.ltb (nth r h 0%nat) nC) eqn:El; [|lia].
  destruct (Qc_eq_dec (hw h) 0) as [E0|E0]; [rewrite E0; ring|]. exfalso.
  assert (K := hw_pair h r Hr E0 El). rewrite E, HL in K. revert K. apply Qcle_not_lt, Qcle_refl.
Qed.

(** The new mixture of a row before normalisation. *)
Definition newgs (r : nat) : list (Qc * G) :=
  multiply (mw a1 (row r) nZ) (tG (vT (at_ (row r)))) ++
  flat_map (fun c => multiply (mw a1 (row r) c) (mixture (at_ (row r)) c)) jl.

Lemma multiply_sum : forall x (gs : list (Qc * G)), qsum (map fst (multiply x gs)) = x * qsum (map fst gs).
Proof using.
  intros x. induction gs as [|g gs IH]; cbn [multiply map]; rewrite ?qsum_nil, ?qsum_cons; [ring|].
  unfold multiply in IH. rewrite IH. cbn [fst]. ring.
Qed.
Lemma newgs_sum : forall r, qsum (map fst (newgs r)) = mw a1 (row r) nZ * qsum (map fst (tG (vT (at_ (row r))))) +
  qsum (map (fun c => mw a1 (row r) c * qsum (map fst (mixture (at_ (row r)) c))) jl).
Proof using.
  intros r. unfold newgs. rewrite map_app, qsum_app, multiply_sum. f_equal. rewrite qsum_flat.
  apply qsum_ext. intros c _. apply multiply_sum.
Qed.
Lemma newgs_nonneg : forall r w g, (r < nR)%nat -> In (w, g) (newgs r) -> 0 <= w.
Proof using Hthr Hclut Hlik Hfine Hil Hjl Hsum Z0.
  intros r w g Hr H. unfold newgs in H. apply in_app_or in H.
  destruct H as [H|H].
  - unfold multiply in H. apply in_map_iff in H. destruct H as ([w0 g0] & E & H). cbn [fst snd] in E. injection E as <- <-.
    destruct (Hfine _ (at_in _ (Hil _ (nth_In il 0%nat Hr)))) as (_ & _ & (_ & B & _) & _).
    apply qmul_nonneg; [eapply B; exact H|apply mw_nonneg; exact Hr].
  - apply in_flat_map in H. destruct H as (c & Hc & H). unfold multiply in H. apply in_map_iff in H.
    destruct H as ([w0 g0] & E & H). cbn [fst snd] in E. injection E as <- <-.
    apply qmul_nonneg; [|apply mw_nonneg; exact Hr].
    eapply mixture_nonneg; [apply Hil, nth_In; exact Hr|apply Hjl; exact Hc|exact H].
Qed.

(** The new mixture has a positive weight. *)
Lemma newgs_pos : forall r, (r < nR)%nat -> (exists b, (b < nC)%nat /\ 0 < lmbL (row r) (nth b jl 0%nat)) ->
  full \/ vPd (at_ (row r)) < 1 -> 0 < qsum (map fst (newgs r)).
Proof using Hthr Hclut Hlik Hfine Hil Hjl Hsum Z0 Zpl Hpos Ahs Njl.
  intros r Hr (b & Hb & HL) Hc. rewrite newgs_sum.
  destruct (Hfine _ (at_in _ (Hil _ (nth_In il 0%nat Hr)))) as (_ & _ & (_ & _ & S1 & _) & _).
  assert (A0 := mw_nonneg r nZ Hr). set (m0 := qsum (map fst (tG _))) in *.
  assert (A : 0 <= mw a1 (row r) nZ * m0) by (apply qmul_nonneg; [exact A0|now apply Qclt_le_weak]).
  assert (T : forall c, In c jl -> 0 <= mw a1 (row r) c * qsum (map fst (mixture (at_ (row r)) c))).
  { intros c Hcj. apply qmul_nonneg; [apply mw_nonneg; exact Hr|]. apply qsum_map_nonneg. intros [w g] Hwg. cbn [fst].
    eapply mixture_nonneg; [apply Hil, nth_In; exact Hr|apply Hjl; exact Hcj|exact Hwg]. }
  assert (B := qsum_map_nonneg _ jl T).
  assert (Seen : forall h, In h hs -> hw h <> 0 -> Nat.ltb (nth r h 0%nat) nC = true ->
    0 < qsum (map (fun c => mw a1 (row r) c * qsum (map fst (mixture (at_ (row r)) c))) jl)).
  { intros h Hh Hn El. assert (Hin : In (nth (nth r h 0%nat) jl 0%nat) jl) by (apply nth_In, Nat.ltb_lt; exact El).
    apply (qsum_pos _ _ (nth (nth r h 0%nat) jl 0%nat)); [exact T|exact Hin|].
    destruct (L_mixture _ _ (hw_pair h r Hr Hn El)) as (_ & K1 & _).
    assert (K2 : 0 < mw a1 (row r) (nth (nth r h 0%nat) jl 0%nat)).
    { rewrite mw_val by exact Hr. apply (qsum_pos _ _ h); [intros; apply mw_term|exact Hh|].
      unfold LmbProofs.tgt, LmbProofs.sh. rewrite El, Nat.eqb_refl, Qcmult_1_r.
      assert (K := hwn h). apply Qcle_lt_or_eq in K. destruct K as [K|K]; [exact K|congruence]. }
    set (x := mw _ _ _) in *. set (y := qsum _) in *. clearbody x y. qcnra. }
  destruct Hc as [F|Hpd1].
  - assert (K := Seen (only r b) (F _ (only_assoc r b Hr Hb) (only_pos r b Hr Hb HL)) (only_pos r b Hr Hb HL)).
    rewrite only_nth, Nat.eqb_refl in K by exact Hr. specialize (K (proj2 (Nat.ltb_lt _ _) Hb)).
    qclra.
  - destruct Hpos as (h & Hh & Hn). destruct (Nat.ltb (nth r h 0%nat) nC) eqn:El.
    + assert (K := Seen h Hh Hn El). qclra.
    + assert (K : 0 < mw a1 (row r) nZ).
      { rewrite mw_val by exact Hr. apply (qsum_pos _ _ h); [intros; apply mw_term|exact Hh|].
        unfold LmbProofs.tgt, LmbProofs.sh. rewrite El, Nat.eqb_refl.
        assert (K := hwn h). apply Qcle_lt_or_eq in K. destruct K as [K|K]; [|congruence].
        assert (R : 0 < ratio vs (row r)).
        { unfold ratio. apply Qclt_div; [apply q_pos|]. replace (0 * (1 - missed_pd (row r))) with 0 by ring.
          destruct (L_mixture _ _ HL) as (_ & _ & K1). set (x := vPe _) in *. set (y := vPd _) in *. clearbody x y. qcnra. }
        set (x := hw h) in *. set (y := ratio _ _) in *. clearbody x y. qcnra. }
      assert (K' : 0 < mw a1 (row r) nZ * m0) by (clearbody m0; revert K S1; generalize (mw a1 (row r) nZ); intros y K1 K2; qcnra).
      qclra.
Qed.
End Rows.

(** The loop writing the new tracks. *)
Hypothesis Hinj : forall i j, (i < length vs)%nat -> (j < length vs)%nat -> vI (at_ i) = vI (at_ j) -> i = j.

Section Loop.
Variables il jl : list nat.
Notation nR := (length il).
Notation "'row' r" := (nth r il 0%nat) (at level 10).
Hypothesis Nil : NoDup il.
Hypothesis Hil : forall i, In i il -> (i < length vs)%nat.
Variable a1 : acc.
Variable ts : list (track G).
Hypothesis Hts : forall i, In i il -> nth_error ts (vI (at_ i)) = Some (vT (at_ i)).
Variable T : nat -> track G.
Variable f : nat -> acc * list (track G) -> outcome (acc * list (track G)).

Definition accinv (k : nat) (a : acc) : Prop :=
  pl a = pl a1 /\ (forall i z, mw a i z = mw a1 i z) /\ (forall i, ~ In i il -> upe a i = upe a1 i) /\
  (forall r, (k <= r < nR)%nat -> upe a (row r) = upe a1 (row r)).

Hypothesis Hf : forall r a us, (r < nR)%nat -> accinv r a -> nth_error us (vI (at_ (row r))) = Some (vT (at_ (row r))) ->
  exists a', f r (a, us) = Val (a', upd us (vI (at_ (row r))) (T r)) /\ accinv (S r) a'.

Lemma rows_loop : exists a' ts', for_ nR f (a1, ts) = Val (a', ts') /\ accinv nR a' /\ length ts' = length ts /\
  (forall r, (r < nR)%nat -> nth_error ts' (vI (at_ (row r))) = Some (T r)) /\
  (forall j, (forall i, In i il -> vI (at_ i) <> j) -> nth_error ts' j = nth_error ts j).
Proof using Nil Hil Hts Hf Hinj.
  assert (Hne : forall r s, (r < nR)%nat -> (s < nR)%nat -> r <> s -> vI (at_ (row r)) <> vI (at_ (row s))).
  { intros r s Hr Hs Hn E. apply Hn. apply (proj1 (NoDup_nth il 0%nat) Nil); auto.
    apply Hinj in E; auto; apply Hil, nth_In; assumption. }
  destruct (for_inv (fun k st => accinv k (fst st) /\ length (snd st) = length ts /\
     (forall r, (r < k)%nat -> nth_error (snd st) (vI (at_ (row r))) = Some (T r)) /\
     (forall r, (k <= r < nR)%nat -> nth_error (snd st) (vI (at_ (row r))) = Some (vT (at_ (row r)))) /\
     (forall j, (forall i, In i il -> vI (at_ i) <> j) -> nth_error (snd st) j = nth_error ts j)) f nR (a1, ts))
    as ([a' ts'] & E & H1 & H2 & H3 & _ & H5).
  - cbn [fst snd]. split; [unfold accinv; auto|]. split; [reflexivity|]. split; [intros; lia|]. split; [|auto].
    intros r Hr. apply Hts, nth_In. lia.
  - intros k [a us] Hkk (H1 & H2 & H3 & H4 & H5). cbn [fst snd] in *.
    destruct (Hf k a us Hkk H1 (H4 k ltac:(lia))) as (a' & Ef & Ha'). exists (a', upd us (vI (at_ (row k))) (T k)).
    split; [exact Ef|]. cbn [fst snd]. split; [exact Ha'|]. split; [rewrite upd_length; exact H2|].
    assert (Hlt : (vI (at_ (row k)) < length us)%nat) by (apply nth_error_Some; rewrite (H4 k ltac:(lia)); discriminate).
    split; [|split].
    + intros r Hr. destruct (Nat.eq_dec r k) as [->|Hn]; [apply nth_error_upd_eq; exact Hlt|].
      rewrite nth_error_upd_neq by (apply Hne; lia). apply H3. lia.
    + intros r Hr. rewrite nth_error_upd_neq by (apply Hne; lia). apply H4. lia.
    + intros j Hj. rewrite nth_error_upd_neq; [apply H5; exact Hj|]. apply Hj, nth_In. exact Hkk.
  - exists a', ts'. cbn [fst snd] in *. auto.
Qed.
End Loop.

(** The relation between the state before and after a partition. *)
Definition smallb (fl : bool) (il jl : list nat) : Prop :=
  fl = false \/ (length il + length jl <= 8)%nat \/ few 200 lmbL missed_pd (fun _ => 1) il jl.
(** Every Gaussian of positive weight is one of the old ones or corrects one with a measurement. *)
Definition origin (i : nat) (t : track G) : Prop :=
  forall w g, In (w, g) (tG t) -> 0 < w -> (exists w0, In (w0, g) (tG (vT (at_ i)))) \/
    exists z g0 l w0, (z < nZ)%nat /\ In (w0, g0) (tG (vT (at_ i))) /\ correct z g0 = Some (g, l) /\ 0 < lmbL i z.
Definition row_done (sm : Prop) (il jl : list nat) (i : nat) (t : track G) : Prop :=
  (fair t /\ (qsum (map fst (tG (vT (at_ i)))) = 1 -> qsum (map fst (tG t)) = 1)) /\ origin i t /\ (sm -> tP t * asum lmbL q (fun _ => 1) il jl = asum lmbL (but q i (miss i)) (fun _ => 1) il jl).
Definition stepped (sm : Prop) (il jl : list nat) (st st' : acc * list (track G)) : Prop :=
  (forall i, In i il -> exists t, nth_error (snd st') (vI (at_ i)) = Some t /\ row_done sm il jl i t) /\
  (forall i z, In i il -> (z < nZ)%nat -> 0 <= mw (fst st') i z /\ (lmbL i z = 0 -> mw (fst st') i z = 0)) /\
  (forall i, ~ In i il -> upe (fst st') i = upe (fst st) i /\ forall z, mw (fst st') i z = mw (fst st) i z) /\
  (forall j, (forall i, In i il -> vI (at_ i) <> j) -> nth_error (snd st') j = nth_error (snd st) j) /\
  length (snd st') = length (snd st) /\
  0 < pl (fst st') /\ (sm -> pl (fst st') = asum lmbL q (fun _ => 1) il jl).

Lemma asum_pdx : forall x il jl, asum lmbL (fun r => 1 - pdx x r) (fun _ => 1) il jl = asum lmbL (but q x (miss x)) (fun _ => 1) il jl.
Proof using.
  intros x il jl. apply asum_ext; try reflexivity. intros r _. unfold pdx, but, q. destruct (Nat.eqb r x); ring.
Qed.

Lemma fold_q : forall l v, fold_left (fun v i => v * (1 - missed_pd i)) l v = v * qprod (map q l).
Proof using.
  induction l as [|i l IH]; intros v; cbn [fold_left map]; rewrite ?qprod_nil, ?qprod_cons; [ring|].
  rewrite IH. unfold q. ring.
Qed.

Lemma normalize_in : forall (gs gs' : list (Qc * G)), normalize gs = Val gs' -> 0 < qsum (map fst gs) ->
  forall w g, In (w, g) gs' -> 0 < w -> exists w0, In (w0, g) gs /\ 0 < w0.
Proof using.
  intros gs gs' H Hp w g Hin Hw. unfold normalize in H. rewrite fold_plus0 in H. set (s := qsum (map fst gs)) in *.
  destruct gs as [|g1 gs]; [injection H as <-; destruct Hin|]. destruct (Qc_eq_dec s 0) as [E|Hs]; [discriminate|]. injection H as <-.
  change (In (w, g) (map (fun g => (fst g / s, snd g)) (g1 :: gs))) in Hin.
  apply in_map_iff in Hin. destruct Hin as ([w0 g0] & E & Hin). cbn [fst snd] in E. injection E as <- <-.
  exists w0. split; [exact Hin|]. assert (K : w0 = w0 / s * s) by (field; exact Hs). set (x := w0 / s) in *. clearbody x s. subst w0. qcnra.
Qed.

Lemma normalize_ok : forall gs : list (Qc * G), (forall w g, In (w, g) gs -> 0 <= w) -> 0 < qsum (map fst gs) ->
  exists gs', normalize gs = Val gs' /\ (forall w g, In (w, g) gs' -> 0 <= w) /\ qsum (map fst gs') = 1.
Proof using.
  intros gs Hn Hp. unfold normalize. rewrite fold_plus0. set (s := qsum (map fst gs)) in *.
  assert (Hs : s <> 0) by (apply Qcpos_neq; exact Hp).
  assert (A : (forall w g, In (w, g) (map (fun g => (fst g / s, snd g)) gs) -> 0 <= w)).
  { intros w g H. apply in_map_iff in H. destruct H as ([w0 g0] & E & H). cbn [fst snd] in E. injection E as <- <-.
    apply Qcle_div; [exact Hp|]. replace (0 * s) with 0 by ring. eapply Hn; exact H. }
  assert (B : qsum (map fst (map (fun g : Qc * G => (fst g / s, snd g)) gs)) = 1).
  { rewrite map_map. cbn [fst]. rewrite (qsum_ext _ (fun g => / s * fst g)) by (intros; unfold Qcdiv; ring).
    rewrite qsum_scale. fold s. field. exact Hs. }
  destruct gs as [|g gs].
  - exfalso. apply Hs. reflexivity.
  - destruct (Qc_eq_dec s 0) as [E|_]; [contradiction|]. eexists. split; [reflexivity|]. auto.
Qed.

Lemma block_step : forall il jl fl st, NoDup il -> NoDup jl ->
  (forall i, In i il -> (i < length vs)%nat) -> (forall z, In z jl -> (z < nZ)%nat) ->
  (forall i, In i il -> upe (fst st) i = 0 /\ forall z, mw (fst st) i z = 0) ->
  (forall i, In i il -> nth_error (snd st) (vI (at_ i)) = Some (vT (at_ i))) ->
  (fl = true -> il <> [] /\ forall i, In i il -> exists z, In z jl /\ 0 < lmbL i z) ->
  (fl = false -> forall i z, In i il -> In z jl -> lmbL i z = 0) ->
  (smallb fl il jl \/ forall i, In i il -> vPd (at_ i) < 1) ->
  exists st', lmb_block correct clutter thr nZ kbest vs (negb ((length il + length jl <=? 8) || negb fl)) fl il jl st = Val st' /\
  stepped (smallb fl il jl) il jl st st'.
Proof using Hthr Hclut Hlik Hk Hfine Hinj.
  intros il jl fl [a ts] Nil Njl Hil Hjl Z0 Hts Hf1 Hf0 Hok. cbn [fst snd] in *.
  assert (Hqn : forall i, 1 - missed_pd i <> 0) by (intros i; apply (q_neq i)).
  assert (Hrow : forall i, In i il -> exists r, (r < length il)%nat /\ nth r il 0%nat = i).
  { intros i Hi. apply In_nth with (d := 0%nat) in Hi. exact Hi. }
  unfold lmb_block. cbn [fst snd]. destruct fl; cbn [negb orb].
  - (* detections *)
    destruct (Hf1 eq_refl) as [Hne Hsee].
    assert (Hjn : (length jl =? 0) = false).
    { apply Nat.eqb_neq. intros E. destruct il as [|i0 il0]; [congruence|]. destruct (Hsee i0 (or_introl eq_refl)) as (z & Hz & _).
      destruct jl; [destruct Hz|discriminate]. }
    rewrite Hjn. cbn [orb negb]. set (a0 := Acc 0 (upe a) (mw a)). rewrite orb_false_r.
    assert (P : exists a1 hs, (if negb (length il + length jl <=? 8)
         then murty_account nZ vs 200 il jl (lmb_extended correct clutter thr vs il jl) (kbest (length il) (length jl) (lmb_extended correct clutter thr vs il jl)) a0
         else lex_account correct clutter thr nZ vs (S (S (length jl) ^ length il)) il jl (lex_new (length il) (length jl) true) a0) = Val a1 /\
       NoDup hs /\ (forall h, In h hs -> association (length il) (length jl) true h) /\
       sumup correct clutter thr nZ vs il jl hs a0 a1 /\
       (exists h, In h hs /\ hyp_weight (length il) (length jl) (fun a b => lmbL (nth a il 0%nat) (nth b jl 0%nat))
                  (fun a => missed_pd (nth a il 0%nat)) (fun b => 1) h <> 0) /\
       (smallb true il jl -> full il jl hs)).
    { destruct (Nat.leb_spec (length il + length jl) 8) as [Hle|Hgt]; cbn [negb].
      - assert (Hn0 : (length il + length jl <> 0)%nat) by (destruct il; [congruence|cbn; lia]).
        destruct (lex_hyps correct clutter thr nZ vs il jl Nil (fun i _ => Hqn i) Hn0 a0) as (a1 & hs & E & N & I & S).
        exists a1, hs. split; [exact E|]. split; [exact N|]. split; [intros h Hh; apply I; exact Hh|]. split; [exact S|]. split.
        + exists (none il jl). split; [apply I, none_assoc|apply none_pos].
        + intros _ h Ha _. apply I. exact Ha.
      - destruct (murty_hyps_lmb correct clutter thr nZ kbest vs il jl Nil (fun i _ => Hqn i) L_nonneg) with (a := a0)
          as (a1 & hs & rs & E & N & I & S & Ln).
        { intros r. destruct (vtrack_pd r) as (_ & _ & K & _). apply Qclt_le_weak. exact K. }
        { exact Hk. }
        assert (N1 : NoDup hs).
        { clear - N. induction hs as [|h hs IH]; [constructor|]. cbn [app] in N. inversion N; subst. constructor; auto.
          intros K. apply H1, in_or_app. auto. }
        exists a1, hs. split; [exact E|]. split; [exact N1|].
        assert (I' : forall h, In h hs -> association (length il) (length jl) true h /\
          hyp_weight (length il) (length jl) (fun a b => lmbL (nth a il 0%nat) (nth b jl 0%nat))
                  (fun a => missed_pd (nth a il 0%nat)) (fun b => 1) h <> 0).
        { intros h Hh. apply I, in_or_app. left. exact Hh. }
        split; [intros h Hh; apply I'; exact Hh|]. split; [exact S|].
        assert (Kn : In (none il jl) (hs ++ rs)) by (apply I; split; [apply none_assoc|apply none_pos]).
        split.
        + destruct hs as [|h hs]; [exfalso|exists h; split; [left; reflexivity|apply I'; left; reflexivity]].
          cbn [app] in Ln, Kn. destruct rs; [destruct Kn|discriminate].
        + intros [K|[K|K]]; [discriminate|lia|]. intros h Ha Hw.
          assert (Hl : (length (hs ++ rs) <= 200)%nat) by (apply K; [exact N|intros h' Hh'; apply I; exact Hh']).
          assert (rs = []).
          { rewrite app_length in Ln, Hl. destruct rs; [reflexivity|]. cbn [length] in Ln, Hl. lia. }
          subst rs. rewrite app_nil_r in I. apply I. auto. }
    destruct P as (a1 & hs & E & N & A & Sm & Hp & F). rewrite E. cbn [obind].
    assert (Z0' : forall i, In i il -> upe a0 i = 0 /\ forall z, mw a0 i z = 0) by exact Z0.
    destruct (pl_total il jl hs a0 a1 Sm Hp eq_refl) as [Hpl Hpp].
    assert (Hup : forall r, (r < length il)%nat -> 0 <= upe a1 (nth r il 0%nat) / pl a1 <= 1).
    { intros r Hr. destruct (upe_val il jl hs a0 a1 Sm Hp eq_refl Z0' r Hr) as [_ [B C]]. rewrite <- Hpl in Hpp. split.
      - apply Qcle_div; [exact Hpp|]. replace (0 * pl a1) with 0 by ring. exact B.
      - apply Qcdiv_le; [exact Hpp|]. replace (1 * pl a1) with (pl a1) by ring. exact C. }
    assert (Hgs : forall r, (r < length il)%nat -> exists gs', normalize (newgs il jl a1 r) = Val gs' /\
       (forall w g, In (w, g) gs' -> 0 <= w) /\ qsum (map fst gs') = 1 /\
       (forall w g, In (w, g) gs' -> 0 < w -> exists w0, In (w0, g) (newgs il jl a1 r) /\ 0 < w0)).
    { intros r Hr.
      assert (Hps : 0 < qsum (map fst (newgs il jl a1 r))).
      { eapply newgs_pos; eauto.
        + destruct (Hsee (nth r il 0%nat) (nth_In _ _ Hr)) as (z & Hz & HL). apply In_nth with (d := 0%nat) in Hz.
          destruct Hz as (b & Hb & <-). exists b. auto.
        + destruct Hok as [Hok|Hok]; [left; auto|right; apply Hok, nth_In; exact Hr]. }
      destruct (normalize_ok (newgs il jl a1 r)) as (gs' & En & K1 & K2); [|exact Hps|].
      - intros w g Hwg. eapply newgs_nonneg; eauto.
      - exists gs'. split; [exact En|]. split; [exact K1|]. split; [exact K2|]. eapply normalize_in; eauto. }
    set (T := fun r => Track (upe a1 (nth r il 0%nat) / pl a1)
                         match normalize (newgs il jl a1 r) with Val g => g | _ => [] end).
    destruct (rows_loop il Nil Hil a1 ts Hts T (finish_row correct clutter nZ vs il jl)) as (a' & ts' & El & Ha & Hlen & HT & Hj).
    { intros r b us Hr (B1 & B2 & B3 & B4) Hus. unfold finish_row.
      rewrite B1. destruct (Qc_eq_dec (pl a1) 0) as [K|_]; [exfalso; rewrite Hpl in K; rewrite K in Hpp; revert Hpp; apply Qcle_not_lt, Qcle_refl|].
      rewrite Hus. cbn [of_option obind].
      assert (Eg : multiply (mw b (nth r il 0%nat) nZ) (tG (vT (at_ (nth r il 0%nat)))) ++
         flat_map (fun c => multiply (mw b (nth r il 0%nat) c) (mixture (at_ (nth r il 0%nat)) c)) jl = newgs il jl a1 r).
      { unfold newgs. rewrite B2. f_equal. apply flat_map_ext. intros c. rewrite B2. reflexivity. }
      rewrite Eg. destruct (Hgs r Hr) as (gs' & En & _). rewrite En. cbn [obind].
      rewrite (B4 r ltac:(lia)). unfold T. rewrite En. eexists. split; [reflexivity|].
      unfold accinv. cbn [pl mw upe]. split; [reflexivity|]. split; [exact B2|]. split.
      - intros i Hi. destruct (Nat.eqb_spec i (nth r il 0%nat)) as [->|]; [exfalso; apply Hi, nth_In; exact Hr|auto].
      - intros s Hs. destruct (Nat.eqb_spec (nth s il 0%nat) (nth r il 0%nat)) as [Es|]; [|apply B4; lia].
        apply (proj1 (NoDup_nth il 0%nat) Nil) in Es; lia. }
    exists (a', ts'). split; [exact El|]. destruct Ha as (A1 & A2 & A3 & _). unfold stepped. cbn [fst snd].
    split; [|split; [|split; [|split; [exact Hj|split; [exact Hlen|]]]]].
    + intros i Hi. destruct (Hrow i Hi) as (r & Hr & <-). exists (T r). split; [apply HT; exact Hr|].
      destruct (Hgs r Hr) as (gs' & En & G1 & G2 & G3). unfold row_done, T. rewrite En. cbn [tP tG]. split; [|split].
      * split; [|intros _; exact G2]. split; [apply Hup; exact Hr|]. cbn [tG]. split; [exact G1|]. rewrite G2. apply Qcle_refl.
      * intros w g Hwg Hw. cbn [tG] in Hwg. destruct (G3 w g Hwg Hw) as (w0 & Hw0 & Hp0). unfold newgs in Hw0. apply in_app_or in Hw0.
        destruct Hw0 as [Hw0|Hw0].
        -- left. unfold multiply in Hw0. apply in_map_iff in Hw0. destruct Hw0 as ([w1 g1] & E1 & H1). cbn [fst snd] in E1. injection E1 as <- <-. eauto.
        -- right. apply in_flat_map in Hw0. destruct Hw0 as (c & Hc & Hw0). unfold multiply in Hw0. apply in_map_iff in Hw0.
           destruct Hw0 as ([w1 g1] & E1 & H1). cbn [fst snd] in E1. injection E1 as <- <-.
           unfold LmbModel.mixture in H1. apply in_flat_map in H1. destruct H1 as ([w2 g2] & H2 & H1). cbn [fst snd] in H1.
           destruct (correct c g2) as [[g3 l]|] eqn:Ec; [|destruct H1]. destruct H1 as [H1|[]]. injection H1 as <- <-.
           exists c, g2, l, w2. split; [apply Hjl; exact Hc|]. split; [exact H2|]. split; [exact Ec|].
           assert (K := L_nonneg (nth r il 0%nat) c). apply Qcle_lt_or_eq in K. destruct K as [K|K]; [exact K|exfalso].
           assert (M0 : mw a1 (nth r il 0%nat) c = 0) by (eapply mw_zero; eauto).
           rewrite M0, Qcmult_0_r in Hp0. revert Hp0. apply Qcle_not_lt, Qcle_refl.
      * intros Hsm. destruct (full_sums il jl Nil Njl hs a0 a1 N A Sm Hp eq_refl Z0' (F Hsm)) as [B1 B2].
        specialize (B2 r Hr). apply block_sum_iff in B1; [|exact Njl]. apply block_sum_iff in B2; [|exact Njl].
        change (fun r => 1 - missed_pd r) with q in B1. rewrite asum_pdx in B2. rewrite <- B1, <- B2, <- Hpl.
        apply Qcdiv_mul. rewrite Hpl. apply Qcpos_neq. exact Hpp.
    + intros i z Hi Hz. destruct (Hrow i Hi) as (r & Hr & <-). rewrite A2. split; [eapply mw_nonneg; eauto|].
      intros HL. eapply mw_zero; eauto.
    + intros i Hi. destruct Sm as (_ & _ & _ & S4). destruct (S4 i Hi) as [S5 S6]. split; [rewrite A3 by exact Hi; exact S5|].
      intros z. rewrite A2. apply S6.
    + split; [rewrite A1, Hpl; exact Hpp|]. intros Hsm.
      destruct (full_sums il jl Nil Njl hs a0 a1 N A Sm Hp eq_refl Z0' (F Hsm)) as [B1 _].
      apply block_sum_iff in B1; [|exact Njl]. rewrite A1, Hpl. exact B1.
  - (* no detections *)
    set (a1 := Acc (fold_left (fun v i => v * (1 - missed_pd i)) il 1) (upe a) (mw a)).
    destruct (rows_loop il Nil Hil a1 ts Hts (fun r => Track (ratio vs (nth r il 0%nat)) (tG (vT (at_ (nth r il 0%nat)))))
      (zero_row vs il)) as (a' & ts' & El & Ha & Hlen & HT & Hj).
    { intros r b us Hr Hb Hus. unfold zero_row.
      destruct (Qc_eq_dec (1 - missed_pd (nth r il 0%nat)) 0) as [K|_]; [exfalso; exact (Hqn _ K)|].
      rewrite Hus. cbn [of_option obind]. exists b. split; [reflexivity|].
      destruct Hb as (B1 & B2 & B3 & B4). unfold accinv. repeat split; auto. intros s Hs. apply B4. lia. }
    exists (a', ts'). split; [exact El|]. destruct Ha as (A1 & A2 & A3 & _). unfold stepped. cbn [fst snd].
    assert (Hz : forall f, asum lmbL f (fun _ => 1) il jl = qprod (map f il)).
    { intros f. rewrite asum_zero by (apply Hf0; reflexivity). rewrite ones. ring. }
    split; [|split; [|split; [|split; [exact Hj|split; [exact Hlen|]]]]].
    + intros i Hi. destruct (Hrow i Hi) as (r & Hr & <-). eexists. split; [apply HT; exact Hr|].
      set (i := nth r il 0%nat) in *. destruct (ratio_ok i) as [R1 R2]. unfold row_done. cbn [tP tG]. split; [|split].
      * destruct (Hfine _ (at_in i (Hil i Hi))) as (_ & _ & (_ & G1 & G2) & _). split; [|auto]. split; [exact R2|]. split; [exact G1|apply G2].
      * intros w g Hwg _. left. exists w. exact Hwg.
      * intros _. rewrite !Hz. rewrite (qprod_but q (but q i (miss i)) i (ratio vs i) il Nil Hi).
        -- ring.
        -- unfold but. rewrite Nat.eqb_refl, <- R1. ring.
        -- intros k _ Hne. unfold but. destruct (Nat.eqb_spec k i); [contradiction|reflexivity].
    + intros i z Hi Hzz. rewrite A2. cbn [mw a1]. rewrite (proj2 (Z0 i Hi)). split; [apply Qcle_refl|auto].
    + intros i Hi. rewrite A3 by exact Hi. split; [reflexivity|]. intros z. apply A2.
    + rewrite A1. cbn [pl a1]. rewrite fold_q, Hz. split; [|intros _; ring].
      replace (1 * qprod (map q il)) with (qprod (map q il)) by ring. apply qprod_pos.
      intros x Hx. apply in_map_iff in Hx. destruct Hx as (i & <- & _). apply q_pos.
Qed.
End Block.
