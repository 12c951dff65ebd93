(** The sum over the results of Murty's algorithm for a block. *)
From Coq Require Import ZArith List Bool Arith QArith Qcanon Lia Permutation Sorted.
From Verif Require Import Base ListUtil QcLra PermanentSpec PermanentProofs EnumLemmas AssignSpec AssignLemmas LexSpec
  RfsModel RfsSpec RfsProofs RfsProofs2.
Import ListNotations.
Local Open Scope Qc_scope.

Lemma product_app : forall E a b i, product_along E i (a ++ b) = product_along E i a * product_along E (i + length a) b.
Proof.
  intros E. induction a as [|x a IH]; intros b i; cbn [app product_along length].
  - rewrite Nat.add_0_r. ring.
  - rewrite IH. replace (i + S (length a))%nat with (S i + length a)%nat by lia. ring.
Qed.

Lemma product_entry : forall E a i k c, product_along E i a <> 0 -> nth_error a k = Some c -> E (i + k)%nat c <> 0.
Proof.
  intros E. induction a as [|x a IH]; intros i [|k] c H Hk; try discriminate; cbn [product_along] in H; cbn in Hk.
  - injection Hk as ->. rewrite Nat.add_0_r. intros K. apply H. rewrite K. ring.
  - replace (i + S k)%nat with (S i + k)%nat by lia. apply IH; [|exact Hk]. intros K. apply H. rewrite K. ring.
Qed.

Lemma product_map : forall E a i (f : nat -> nat -> Qc),
  (forall k c, nth_error a k = Some c -> E (i + k)%nat c = f k c) ->
  product_along E i a = qprod (map (fun k => f k (nth k a 0%nat)) (seq 0 (length a))).
Proof.
  intros E. induction a as [|x a IH]; intros i f H; cbn [product_along length seq map]; [reflexivity|].
  rewrite qprod_cons. cbn [nth]. f_equal.
  - rewrite <- (H 0%nat x eq_refl), Nat.add_0_r. reflexivity.
  - rewrite (IH (S i) (fun k c => f (S k) c)).
    + rewrite <- seq_shift, map_map. reflexivity.
    + intros k c Hk. rewrite <- (H (S k) c Hk). f_equal. lia.
Qed.

Lemma product_nonneg : forall E a i, (forall r c, 0 <= E r c) -> 0 <= product_along E i a.
Proof.
  intros E a i H. revert i. induction a as [|x a IH]; intros i; cbn [product_along]; [qclra|].
  apply qmul_nonneg; auto.
Qed.

(** position of k in h *)
Fixpoint pos (k : nat) (h : list nat) : nat :=
  match h with [] => 0%nat | x :: r => if Nat.eqb x k then 0%nat else S (pos k r) end.
Lemma pos_ok : forall k h, In k h -> nth_error h (pos k h) = Some k.
Proof.
  intros k. induction h as [|x h IH]; intros H; [destruct H|]. cbn [pos].
  destruct (Nat.eqb_spec x k) as [->|Hne]; [reflexivity|]. destruct H as [->|H]; [congruence|]. exact (IH H).
Qed.

Lemma firstn_short : forall (l : list nat) n, (length l <= n)%nat -> firstn n l = l.
Proof. intros l n H. apply firstn_all2. exact H. Qed.

Section Block.
Variable L : nat -> nat -> Qc.
Variables pd cl : nat -> Qc.
Variables il jl : list nat.
Notation nR := (length il).
Notation nC := (length jl).
Notation hw := (hyp_weight nR nC (fun a b => L (nth a il 0%nat) (nth b jl 0%nat))
                  (fun a => pd (nth a il 0%nat)) (fun b => cl (nth b jl 0%nat))).
Notation E := (extended L pd cl il jl).
Hypothesis HL : forall r c, 0 <= L r c.
Hypothesis Hpd : forall r, pd r <= 1.
Hypothesis Hcl : forall c, 0 <= cl c.

Lemma E_nonneg : forall r c, 0 <= E r c.
Proof.
  intros r c. unfold extended.
  assert (K := Hpd (nth r il 0%nat)). assert (K1 : 0 <= 1 - pd (nth r il 0%nat)) by qclra.
  assert (K2 : 0 <= 1) by qclra. assert (K3 : 0 <= 0) by qclra.
  destruct (r <? nR); destruct (c <? nC); auto; [destruct (r =? c - nC)|destruct (r - nR =? c)]; auto.
Qed.

(** The hypothesis of an assignment. *)
Definition hyp (a : list nat) : list nat := map (fun c => if Nat.ltb c nC then c else nC) (firstn nR a).

Lemma hyp_length : forall a, assignment (nR + nC) a -> length (hyp a) = nR.
Proof. intros a H. unfold hyp. rewrite map_length, firstn_length, (assignment_length _ _ H). lia. Qed.

Lemma hyp_assoc : forall a, assignment (nR + nC) a -> association nR nC true (hyp a).
Proof.
  intros a H. split; [apply hyp_length; exact H|]. split.
  - intros v Hv. apply in_map_iff in Hv. destruct Hv as (c & <- & Hc).
    destruct (Nat.ltb_spec c nC); auto.
  - intros i j v Hv Hi Hj. unfold hyp in Hi, Hj. rewrite nth_error_map in Hi, Hj.
    destruct (nth_error (firstn nR a) i) as [c|] eqn:Ei; [|discriminate].
    destruct (nth_error (firstn nR a) j) as [d|] eqn:Ej; [|discriminate].
    cbn [option_map] in Hi, Hj. injection Hi as Hi. injection Hj as Hj.
    destruct (Nat.ltb_spec c nC); [|lia]. destruct (Nat.ltb_spec d nC); [|lia]. subst c d.
    assert (N : NoDup (firstn nR a)).
    { apply (nodup_app_l _ (skipn nR a)). rewrite firstn_skipn. eapply assignment_nodup; exact H. }
    apply (proj1 (NoDup_nth_error (firstn nR a)) N); [apply nth_error_Some; congruence|congruence].
Qed.

Lemma leftover2 : forall a, assignment (nR + nC) a ->
  Permutation (filter (fun x => Nat.ltb x nC) (skipn nR a)) (filter (notin (hyp a)) (seq 0 nC)).
Proof.
  intros a P. apply (perm_filter (fun x => Nat.ltb x nC)) in P.
  replace (filter (fun x => Nat.ltb x nC) (seq 0 (nR + nC))) with (seq 0 nC) in P.
  2:{ rewrite Nat.add_comm, seq_app, filter_app. cbn [Nat.add].
      assert (A : forall l, (forall x, In x l -> (x < nC)%nat) -> filter (fun x => Nat.ltb x nC) l = l).
      { induction l as [|x l IH]; intros H; [reflexivity|]. cbn [filter].
        assert (Hx := H x (or_introl eq_refl)). apply Nat.ltb_lt in Hx. rewrite Hx, IH; [reflexivity|].
        intros y Hy. apply H. right. exact Hy. }
      assert (B : forall l, (forall x, In x l -> (nC <= x)%nat) -> filter (fun x => Nat.ltb x nC) l = []).
      { induction l as [|x l IH]; intros H; [reflexivity|]. cbn [filter].
        assert (Hx := H x (or_introl eq_refl)). apply Nat.ltb_ge in Hx. rewrite Hx. apply IH.
        intros y Hy. apply H. right. exact Hy. }
      rewrite A by (intros x Hx; apply in_seq in Hx; lia).
      rewrite B by (intros x Hx; apply in_seq in Hx; lia). symmetry. apply app_nil_r. }
  rewrite <- (firstn_skipn nR a) in P at 1. rewrite filter_app in P.
  assert (N : NoDup (filter (fun x => Nat.ltb x nC) (firstn nR a) ++ filter (fun x => Nat.ltb x nC) (skipn nR a))).
  { eapply Permutation_NoDup; [apply Permutation_sym; exact P|apply seq_NoDup]. }
  assert (HI : forall x, (x < nC)%nat -> (In x (hyp a) <-> In x (firstn nR a))).
  { intros x Hx. unfold hyp. rewrite in_map_iff. split.
    - intros (c & Hc & Hin). destruct (Nat.ltb_spec c nC); [subst; exact Hin|lia].
    - intros Hin. exists x. split; [|exact Hin]. apply Nat.ltb_lt in Hx. rewrite Hx. reflexivity. }
  apply NoDup_Permutation.
  - eapply nodup_app_r. exact N.
  - apply NoDup_filter, seq_NoDup.
  - intros x. split.
    + intros Hx. assert (Hx' := Hx). apply filter_In in Hx'. destruct Hx' as [H1 H2]. apply Nat.ltb_lt in H2.
      apply filter_In. split; [apply in_seq; lia|].
      apply notin_true. intros K. apply HI in K; [|exact H2].
      apply (nodup_app_disj _ _ x N); [|exact Hx]. apply filter_In. split; [exact K|apply Nat.ltb_lt; exact H2].
    + intros Hx. apply filter_In in Hx. destruct Hx as [H1 H2]. apply notin_true in H2.
      assert (H1' := H1). apply in_seq in H1'.
      apply (Permutation_in _ (Permutation_sym P)) in H1. apply in_app_or in H1.
      destruct H1 as [H1|H1]; [|exact H1]. apply filter_In in H1. exfalso. apply H2. apply HI; [lia|tauto].
Qed.

Lemma E_top : forall a k c, product_along E 0 a <> 0 -> (k < nR)%nat -> nth_error a k = Some c ->
  (nC <= c)%nat -> c = (nC + k)%nat.
Proof.
  intros a k c H Hk Hc Hle. assert (G := product_entry E a 0 k c H Hc). cbn [Nat.add] in G.
  unfold extended in G. apply Nat.ltb_lt in Hk. rewrite Hk in G.
  destruct (Nat.ltb_spec c nC); [lia|]. destruct (Nat.eqb_spec k (c - nC)); [lia|]. congruence.
Qed.

Lemma qprod_if : forall (P : nat -> bool) (f : nat -> Qc) l,
  qprod (map (fun x => if P x then f x else 1) l) = qprod (map f (filter P l)).
Proof.
  intros P f. induction l as [|x l IH]; cbn [map filter]; [reflexivity|].
  rewrite qprod_cons, IH. destruct (P x); cbn [map]; rewrite ?qprod_cons; ring.
Qed.

Lemma product_hyp : forall a, assignment (nR + nC) a -> product_along E 0 a <> 0 -> product_along E 0 a = hw (hyp a).
Proof.
  intros a H Hn. assert (La := assignment_length _ _ H).
  assert (Lf : length (firstn nR a) = nR) by (rewrite firstn_length; lia).
  assert (Ls : length (skipn nR a) = nC) by (rewrite skipn_length; lia).
  rewrite <- (firstn_skipn nR a) at 1. rewrite product_app, Lf. unfold hyp_weight. f_equal.
  - rewrite (product_map E (firstn nR a) 0 (fun k c => if Nat.ltb c nC then L (nth k il 0%nat) (nth c jl 0%nat) else 1 - pd (nth k il 0%nat))).
    + rewrite Lf. f_equal. apply map_ext_in. intros k Hk. apply in_seq in Hk.
      assert (Hh : nth k (hyp a) 0%nat = if Nat.ltb (nth k (firstn nR a) 0%nat) nC then nth k (firstn nR a) 0%nat else nC).
      { unfold hyp. set (f := fun c => if Nat.ltb c nC then c else nC).
        rewrite (nth_indep _ _ (f 0%nat)) by (rewrite map_length, Lf; lia). rewrite map_nth. reflexivity. }
      rewrite Hh. destruct (Nat.ltb_spec (nth k (firstn nR a) 0%nat) nC) as [Hlt|Hge].
      * destruct (Nat.ltb_spec (nth k (firstn nR a) 0%nat) nC); [reflexivity|lia].
      * rewrite Nat.ltb_irrefl. reflexivity.
    + intros k c Hk. assert (Hlt : (k < nR)%nat) by (rewrite <- Lf; apply nth_error_Some; congruence).
      cbn [Nat.add]. unfold extended. assert (Hb := Hlt). apply Nat.ltb_lt in Hb. rewrite Hb.
      destruct (Nat.ltb_spec c nC) as [Hc|Hc]; [reflexivity|].
      assert (Hka : nth_error a k = Some c).
      { rewrite <- (firstn_skipn nR a). rewrite nth_error_app1 by lia. exact Hk. }
      rewrite (E_top a k c Hn Hlt Hka Hc). replace (nC + k - nC)%nat with k by lia. rewrite Nat.eqb_refl. reflexivity.
  - rewrite (product_map E (skipn nR a) (0 + nR) (fun k c => if Nat.ltb c nC then cl (nth c jl 0%nat) else 1)).
    + rewrite Ls.
      assert (Em : map (fun k => (fun c => if Nat.ltb c nC then cl (nth c jl 0%nat) else 1) (nth k (skipn nR a) 0%nat)) (seq 0 nC) =
                   map (fun c => if Nat.ltb c nC then cl (nth c jl 0%nat) else 1) (skipn nR a)).
      { set (f := fun c => if Nat.ltb c nC then cl (nth c jl 0%nat) else 1).
        transitivity (map f (map (fun k => nth k (skipn nR a) 0%nat) (seq 0 nC))); [rewrite map_map; reflexivity|].
        f_equal. rewrite <- Ls. apply map_nth_seq. }
      cbn beta in Em. rewrite Em, qprod_if. apply qprod_perm, Permutation_map, leftover2. exact H.
    + intros k c Hk. assert (Hlt : (k < nC)%nat) by (rewrite <- Ls; apply nth_error_Some; congruence).
      assert (Hka : nth_error a (nR + k) = Some c).
      { rewrite <- (firstn_skipn nR a). rewrite nth_error_app2 by lia. rewrite Lf. replace (nR + k - nR)%nat with k by lia. exact Hk. }
      assert (G := product_entry E a 0 (nR + k) c Hn Hka). cbn [Nat.add] in *.
      unfold extended in *. destruct (Nat.ltb_spec (nR + k) nR); [lia|].
      destruct (Nat.ltb_spec c nC); [|reflexivity].
      destruct (Nat.eqb_spec (nR + k - nR) c); [reflexivity|congruence].
Qed.

Lemma hyp_inj : forall a b, assignment (nR + nC) a -> assignment (nR + nC) b ->
  product_along E 0 a <> 0 -> product_along E 0 b <> 0 -> hyp a = hyp b -> firstn nR a = firstn nR b.
Proof.
  intros a b Ha Hb Na Nb Eh. assert (La := assignment_length _ _ Ha). assert (Lb := assignment_length _ _ Hb).
  apply list_ext. intros k.
  destruct (nth_error (firstn nR a) k) as [c|] eqn:Ec; destruct (nth_error (firstn nR b) k) as [d|] eqn:Ed.
  - assert (Hk : (k < nR)%nat).
    { assert (K : (k < length (firstn nR a))%nat) by (apply nth_error_Some; congruence). rewrite firstn_length in K. lia. }
    assert (Ha' : nth_error a k = Some c).
    { rewrite <- (firstn_skipn nR a). rewrite nth_error_app1; [exact Ec|rewrite firstn_length; lia]. }
    assert (Hb' : nth_error b k = Some d).
    { rewrite <- (firstn_skipn nR b). rewrite nth_error_app1; [exact Ed|rewrite firstn_length; lia]. }
    assert (K : nth_error (hyp a) k = nth_error (hyp b) k) by (rewrite Eh; reflexivity).
    unfold hyp in K. rewrite !nth_error_map, Ec, Ed in K. cbn [option_map] in K. injection K as K. f_equal.
    destruct (Nat.ltb_spec c nC); destruct (Nat.ltb_spec d nC); try lia.
    rewrite (E_top a k c Na Hk Ha' ltac:(assumption)). rewrite (E_top b k d Nb Hk Hb' ltac:(assumption)). reflexivity.
  - exfalso. apply nth_error_None in Ed. assert (K : (k < length (firstn nR a))%nat) by (apply nth_error_Some; congruence).
    rewrite firstn_length in *. lia.
  - exfalso. apply nth_error_None in Ec. assert (K : (k < length (firstn nR b))%nat) by (apply nth_error_Some; congruence).
    rewrite firstn_length in *. lia.
  - reflexivity.
Qed.

(** The assignment of a hypothesis. *)
Definition asg (h : list nat) : list nat :=
  map (fun i => if Nat.ltb (nth i h 0%nat) nC then nth i h 0%nat else (nC + i)%nat) (seq 0 nR) ++
  map (fun k => if notin h k then k else (nC + pos k h)%nat) (seq 0 nC).

Lemma nodup_map_in : forall (f : nat -> nat) l, NoDup l ->
  (forall x y, In x l -> In y l -> f x = f y -> x = y) -> NoDup (map f l).
Proof.
  intros f. induction l as [|x l IH]; intros N H; cbn [map]; [constructor|]. inversion N; subst. constructor.
  - intros K. apply in_map_iff in K. destruct K as (y & E1 & Hy).
    assert (x = y) by (apply H; [left; reflexivity|right; exact Hy|congruence]). subst. contradiction.
  - apply IH; [assumption|]. intros a b Ha Hb. apply H; right; assumption.
Qed.

Lemma asg_assignment : forall h, association nR nC true h -> assignment (nR + nC) (asg h).
Proof.
  intros h (Hl & Hv & Hd). apply assignment_intro.
  - unfold asg. rewrite app_length, !map_length, !seq_length. reflexivity.
  - assert (Hpos : forall k, (k < nC)%nat -> notin h k = false -> nth_error h (pos k h) = Some k /\ (pos k h < nR)%nat).
    { intros k Hk Hn. assert (K : In k h).
      { destruct (in_dec Nat.eq_dec k h) as [K|K]; [exact K|]. apply notin_true in K. congruence. }
      apply pos_ok in K. split; [exact K|]. rewrite <- Hl. apply nth_error_Some. congruence. }
    assert (Hnth : forall i, (i < nR)%nat -> nth_error h i = Some (nth i h 0%nat)).
    { intros i Hi. apply nth_error_nth'. lia. }
    apply MurtyProofs.NoDup_app_intro.
    + apply nodup_map_in; [apply seq_NoDup|]. intros x y Hx Hy E1. apply in_seq in Hx, Hy. cbn beta in E1.
      destruct (Nat.ltb_spec (nth x h 0%nat) nC) as [H1|H1]; destruct (Nat.ltb_spec (nth y h 0%nat) nC) as [H2|H2]; try lia.
      apply (Hd x y (nth x h 0%nat) H1); [apply Hnth; lia|rewrite E1; apply Hnth; lia].
    + apply nodup_map_in; [apply seq_NoDup|]. intros x y Hx Hy E1. apply in_seq in Hx, Hy. cbn beta in E1.
      destruct (notin h x) eqn:Nx; destruct (notin h y) eqn:Ny; try lia.
      destruct (Hpos x ltac:(lia) Nx) as [P1 _]. destruct (Hpos y ltac:(lia) Ny) as [P2 _].
      replace (pos y h) with (pos x h) in P2 by lia. congruence.
    + intros c Ha Hb. apply in_map_iff in Ha, Hb. destruct Ha as (i & E1 & Hi). destruct Hb as (k & E2 & Hk).
      apply in_seq in Hi, Hk.
      destruct (Nat.ltb_spec (nth i h 0%nat) nC) as [H1|H1]; destruct (notin h k) eqn:Nk; try lia.
      * apply notin_true in Nk. apply Nk. subst k. rewrite <- E1. eapply nth_error_In. apply Hnth. lia.
      * destruct (Hpos k ltac:(lia) Nk) as [P1 _]. replace (pos k h) with i in P1 by lia.
        rewrite Hnth in P1 by lia. injection P1 as P1. lia.
  - intros y Hy. apply in_app_or in Hy. destruct Hy as [Hy|Hy]; apply in_map_iff in Hy; destruct Hy as (i & E1 & Hi); apply in_seq in Hi.
    + destruct (Nat.ltb_spec (nth i h 0%nat) nC); lia.
    + destruct (notin h i) eqn:Ni; [lia|].
      assert (K : In i h).
      { destruct (in_dec Nat.eq_dec i h) as [K|K]; [exact K|]. apply notin_true in K. congruence. }
      apply pos_ok in K. assert (pos i h < length h)%nat by (apply nth_error_Some; congruence). lia.
Qed.

Lemma asg_firstn : forall h, firstn nR (asg h) =
  map (fun i => if Nat.ltb (nth i h 0%nat) nC then nth i h 0%nat else (nC + i)%nat) (seq 0 nR).
Proof.
  intros h. unfold asg. rewrite firstn_app, map_length, seq_length, Nat.sub_diag. cbn [firstn].
  rewrite app_nil_r. apply firstn_all2. rewrite map_length, seq_length. lia.
Qed.

Lemma asg_hyp : forall h, association nR nC true h -> hyp (asg h) = h.
Proof.
  intros h (Hl & Hv & Hd). unfold hyp. rewrite asg_firstn, map_map. transitivity (map (fun j => nth j h 0%nat) (seq 0 (length h))); [|apply map_nth_seq].
  rewrite Hl. apply map_ext_in. intros i Hi. apply in_seq in Hi.
  assert (Hi2 : (i < length h)%nat) by lia.
  assert (K := Hv (nth i h 0%nat) (nth_In h 0%nat Hi2)).
  cbn beta. assert (K' : (nth i h 0 <= nC)%nat) by (destruct K as [K|[_ K]]; lia).
  destruct (Nat.ltb_spec (nth i h 0%nat) nC) as [H1|H1].
  - apply Nat.ltb_lt in H1. rewrite H1. reflexivity.
  - destruct (Nat.ltb_spec (nC + i) nC); lia.
Qed.

Lemma asg_nonzero : forall h, association nR nC true h -> hw h <> 0 -> product_along E 0 (asg h) <> 0.
Proof.
  intros h Ha Hn. assert (Lh : length h = nR) by apply Ha.
  assert (G : product_along E 0 (asg h) = hw h); [|rewrite G; exact Hn].
  unfold asg. rewrite product_app, map_length, seq_length. unfold hyp_weight. f_equal.
  - rewrite (product_map E _ 0 (fun k c => if Nat.ltb c nC then L (nth k il 0%nat) (nth c jl 0%nat) else 1 - pd (nth k il 0%nat))).
    + rewrite map_length, seq_length. f_equal. apply map_ext_in. intros k Hk. apply in_seq in Hk.
      set (f := fun i => if Nat.ltb (nth i h 0%nat) nC then nth i h 0%nat else (nC + i)%nat).
      rewrite (nth_indep _ _ (f 0%nat)) by (rewrite map_length, seq_length; lia). rewrite map_nth, seq_nth by lia.
      cbn [Nat.add]. unfold f. destruct (Nat.ltb_spec (nth k h 0%nat) nC) as [H1|H1].
      * destruct (Nat.ltb_spec (nth k h 0%nat) nC); [reflexivity|lia].
      * destruct (Nat.ltb_spec (nC + k) nC); [lia|reflexivity].
    + intros k c Hk. rewrite nth_error_map in Hk. destruct (nth_error (seq 0 nR) k) as [k'|] eqn:Ek; [|discriminate].
      assert (Hlt : (k < nR)%nat) by (rewrite <- (seq_length nR 0); apply nth_error_Some; congruence).
      rewrite (nth_error_nth' _ 0%nat) in Ek by (rewrite seq_length; lia). rewrite seq_nth in Ek by lia.
      injection Ek as <-. cbn [option_map Nat.add] in Hk. injection Hk as <-.
      cbn [Nat.add]. unfold extended. assert (Hb := Hlt). apply Nat.ltb_lt in Hb. rewrite Hb.
      destruct (Nat.ltb_spec (nth k h 0%nat) nC) as [Hc|Hc].
      * destruct (Nat.ltb_spec (nth k h 0%nat) nC); [reflexivity|lia].
      * destruct (Nat.ltb_spec (nC + k) nC); [lia|]. replace (nC + k - nC)%nat with k by lia. rewrite Nat.eqb_refl. reflexivity.
  - rewrite (product_map E _ (0 + nR) (fun k c => if notin h k then cl (nth k jl 0%nat) else 1)).
    + rewrite map_length, seq_length. rewrite qprod_if. reflexivity.
    + intros k c Hk. rewrite nth_error_map in Hk. destruct (nth_error (seq 0 nC) k) as [k'|] eqn:Ek; [|discriminate].
      assert (Hlt : (k < nC)%nat) by (rewrite <- (seq_length nC 0); apply nth_error_Some; congruence).
      rewrite (nth_error_nth' _ 0%nat) in Ek by (rewrite seq_length; lia). rewrite seq_nth in Ek by lia.
      injection Ek as <-. cbn [option_map Nat.add] in Hk. injection Hk as <-.
      cbn [Nat.add]. unfold extended. destruct (Nat.ltb_spec (nR + k) nR); [lia|].
      replace (nR + k - nR)%nat with k by lia.
      destruct (notin h k).
      * apply Nat.ltb_lt in Hlt. rewrite Hlt, Nat.eqb_refl. reflexivity.
      * destruct (Nat.ltb_spec (nC + pos k h) nC); [lia|reflexivity].
Qed.

Notation w := (product_along E 0).
Definition nz (a : list nat) : bool := if Qc_eq_dec (w a) 0 then false else true.

Lemma nz_true : forall a, nz a = true <-> w a <> 0.
Proof. intros a. unfold nz. destruct (Qc_eq_dec (w a) 0); split; intros; congruence. Qed.

Lemma murty_sum_firstn : forall outs k, StronglySorted (fun a b => w b <= w a) outs ->
  murty_sum k E outs = qsum (map w (firstn k (filter nz outs))).
Proof.
  induction outs as [|a outs IH]; intros k HS.
  - destruct k; reflexivity.
  - inversion HS as [|? ? HS' HF]; subst. destruct k as [|k]; [reflexivity|].
    cbn [murty_sum filter]. unfold nz at 1. destruct (Qc_eq_dec (w a) 0) as [E0|E0].
    + replace (filter nz outs) with (@nil (list nat)); [reflexivity|].
      clear IH HS HS'. induction outs as [|b outs IHo]; [reflexivity|]. inversion HF; subst. cbn [filter].
      unfold nz at 1. destruct (Qc_eq_dec (w b) 0) as [E1|E1]; [apply IHo; assumption|].
      exfalso. apply E1. assert (K := product_nonneg E b 0 E_nonneg).
      rewrite E0 in H1. apply Qcle_antisym; assumption.
    + cbn [firstn map]. rewrite qsum_cons, IH by assumption. reflexivity.
Qed.

Lemma hw_nonneg : forall h, 0 <= hw h.
Proof.
  intros h. unfold hyp_weight. apply qmul_nonneg.
  - apply qprod_nonneg. intros x Hx. apply in_map_iff in Hx. destruct Hx as (m & <- & _).
    destruct (Nat.ltb _ _); [apply HL|]. assert (K := Hpd (nth m il 0%nat)). qclra.
  - apply qprod_nonneg. intros x Hx. apply in_map_iff in Hx. destruct Hx as (m & <- & _). apply Hcl.
Qed.

Lemma qsum_nonneg : forall l, (forall x, In x l -> 0 <= x) -> 0 <= qsum l.
Proof.
  induction l as [|x l IH]; intros H; [rewrite qsum_nil; qclra|]. rewrite qsum_cons.
  assert (H1 := H x (or_introl eq_refl)). assert (H2 := IH (fun y Hy => H y (or_intror Hy))). qclra.
Qed.

Lemma qsum_filter : forall (f : list nat -> Qc) (P : list nat -> bool) l,
  (forall x, In x l -> P x = false -> f x = 0) -> qsum (map f (filter P l)) = qsum (map f l).
Proof.
  intros f P. induction l as [|x l IH]; intros H; [reflexivity|]. cbn [filter map].
  rewrite qsum_cons, <- (IH (fun y Hy => H y (or_intror Hy))). destruct (P x) eqn:Ex; cbn [map]; rewrite ?qsum_cons; [reflexivity|].
  rewrite (H x (or_introl eq_refl) Ex). ring.
Qed.

Variable kbest : nat -> nat -> (nat -> nat -> Qc) -> list (list nat).
Hypothesis Hk : kbest_contract kbest.

Lemma murty_hyps : NoDup (map hyp (filter nz (kbest nR nC E))) /\
  (forall h, In h (map hyp (filter nz (kbest nR nC E))) <-> association nR nC true h /\ hw h <> 0) /\
  (forall a, In a (filter nz (kbest nR nC E)) -> assignment (nR + nC) a /\ w a = hw (hyp a)).
Proof.
  destruct (Hk nR nC E E_nonneg) as (K1 & K2 & K3 & K4).
  set (outs := kbest nR nC E) in *.
  set (ps := filter nz outs). set (hs := map hyp ps).
  assert (Hps : forall a, In a ps <-> In a outs /\ w a <> 0).
  { intros a. unfold ps. rewrite filter_In, nz_true. reflexivity. }
  assert (Nhs : NoDup hs).
  { unfold hs. assert (Q : NoDup (map (firstn nR) ps)).
    { unfold ps. clear - K2. induction outs as [|a o IH]; [constructor|]. cbn [map filter] in *. inversion K2; subst.
      destruct (nz a); [|auto]. cbn [map]. constructor; [|auto]. intros K. apply H1.
      apply in_map_iff in K. destruct K as (b & E1 & Hb). apply filter_In in Hb. rewrite <- E1. apply in_map. tauto. }
    assert (I : forall a, In a ps -> assignment (nR + nC) a /\ w a <> 0).
    { intros a Ha. apply Hps in Ha. split; [apply K1; tauto|tauto]. }
    clearbody ps. clear - Q I. induction ps as [|a ps IH]; [constructor|]. cbn [map] in *. inversion Q; subst.
    constructor; [|apply IH; [assumption|intros; apply I; right; assumption]].
    intros K. apply in_map_iff in K. destruct K as (b & E1 & Hb).
    destruct (I a (or_introl eq_refl)) as [A1 A2]. destruct (I b (or_intror Hb)) as [B1 B2].
    apply H1. rewrite <- (hyp_inj b a B1 A1 B2 A2 E1). apply in_map. exact Hb. }
  assert (Ihs : forall h, In h hs <-> association nR nC true h /\ hw h <> 0).
  { intros h. unfold hs. rewrite in_map_iff. split.
    - intros (a & <- & Ha). apply Hps in Ha. destruct Ha as [Ha Hw]. assert (Aa := K1 a Ha).
      split; [apply hyp_assoc; exact Aa|]. rewrite <- product_hyp by assumption. exact Hw.
    - intros [Ha Hw]. assert (Aa := asg_assignment h Ha). assert (Wa := asg_nonzero h Ha Hw).
      destruct (K4) with (b := asg h) as (a & Hin & Ef & Hle).
      + intros a _ Hp i c Hi Hc Hle. apply (E_top a i c); try assumption.
        intros Z0. rewrite Z0 in Hp. revert Hp. apply Qcle_not_lt. apply Qcle_refl.
      + exact Aa.
      + assert (P := product_nonneg E (asg h) 0 E_nonneg). apply Qcle_lt_or_eq in P. destruct P as [P|P]; [exact P|congruence].
      + assert (Eh : hyp a = h).
        { unfold hyp. rewrite Ef. apply (asg_hyp h Ha). }
        exists a. split; [exact Eh|]. apply Hps. split; [exact Hin|].
        intros Z0. rewrite Z0 in Hle. apply Wa. apply Qcle_antisym; [exact Hle|apply product_nonneg, E_nonneg]. }
  split; [exact Nhs|]. split; [exact Ihs|].
  intros a Ha. apply Hps in Ha. split; [apply K1; tauto|]. apply product_hyp; [apply K1|]; tauto.
Qed.

Theorem murty_block_k : forall k, NoDup jl -> exists v, block_sum L pd cl il jl v /\
  murty_sum k E (kbest nR nC E) <= v /\ 0 <= murty_sum k E (kbest nR nC E) /\
  (few k L pd cl il jl -> murty_sum k E (kbest nR nC E) = v).
Proof.
  intros k Nj. destruct (Hk nR nC E E_nonneg) as (_ & _ & K3 & _). destruct murty_hyps as (Nhs & Ihs & Hw).
  set (outs := kbest nR nC E) in *.
  set (ps := filter nz outs) in *. set (hs := map hyp ps) in *.
  assert (Sp : qsum (map w ps) = qsum (map hw hs)).
  { unfold hs. rewrite map_map. apply qsum_ext. intros a Ha. apply Hw in Ha. tauto. }
  set (v := asum L (fun r => 1 - pd r) cl il jl).
  assert (Bv : block_sum L pd cl il jl v) by (apply block_sum_iff; [exact Nj|reflexivity]).
  assert (Sv : qsum (map w ps) = v).
  { rewrite Sp. destruct Bv as (gs & G1 & G2 & ->).
    rewrite <- (qsum_filter hw (fun h => if Qc_eq_dec (hw h) 0 then false else true) gs).
    - apply qsum_perm, Permutation_map, NoDup_Permutation; [exact Nhs|apply NoDup_filter; exact G1|].
      intros h. rewrite Ihs, filter_In, G2. destruct (Qc_eq_dec (hw h) 0); split; intros [? ?]; split; congruence || auto.
    - intros h _ Hz. destruct (Qc_eq_dec (hw h) 0); [assumption|discriminate]. }
  assert (Wn : forall l x, In x (map w l) -> 0 <= x).
  { intros l x Hx. apply in_map_iff in Hx. destruct Hx as (a & <- & _). apply product_nonneg, E_nonneg. }
  exists v. split; [exact Bv|]. rewrite murty_sum_firstn by exact K3. fold ps. split; [|split].
  - rewrite <- Sv. rewrite <- (firstn_skipn k ps) at 2. rewrite map_app, qsum_app.
    assert (Q := qsum_nonneg (map w (skipn k ps)) (Wn _)). qclra.
  - apply qsum_nonneg. apply Wn.
  - intros Hf. rewrite firstn_all2; [exact Sv|]. rewrite <- (map_length hyp). apply Hf; [exact Nhs|].
    intros h Hh. apply Ihs. exact Hh.
Qed.

Theorem murty_block : NoDup jl -> exists v, block_sum L pd cl il jl v /\
  murty_sum 200 E (kbest nR nC E) <= v /\ 0 <= murty_sum 200 E (kbest nR nC E) /\
  (few 200 L pd cl il jl -> murty_sum 200 E (kbest nR nC E) = v).
Proof. exact (murty_block_k 200). Qed.
End Block.
