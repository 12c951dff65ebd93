(** Proofs about the weight factor of the CB-MeMBer filter. *)
From Coq Require Import ZArith List Bool Arith QArith Qcanon Lia Relations Permutation Sorted.
From Verif Require Import Base ListUtil QcLra Loop PermanentSpec PermanentProofs PartitionModel PartitionSpec RfsModel RfsSpec
  RfsProofs RfsProofs2 RfsProofs4 RfsProofs5 PhdModel LmbModel LmbSpec MemberModel MemberSpec MemberProofs WeighModel WeighSpec
  WeighProofs PartitionRef.
Import ListNotations.
Local Open Scope Qc_scope.

Section Ext.
Variables L L' : nat -> nat -> Qc.
Variables pd pd' : nat -> Qc.
Variable cl : nat -> Qc.
Hypothesis HL : forall m z, L m z = L' m z.
Hypothesis Hpd : forall m, pd m = pd' m.

Lemma swapped_ext : forall nZ m, swapped nZ L pd m = swapped nZ L' pd' m.
Proof.
  intros nZ m. unfold swapped. rewrite Hpd.
  assert (E : forall l, forallb (fun z => Qcleb (L m z) 0) l = forallb (fun z => Qcleb (L' m z) 0) l).
  { induction l as [|z l IH]; [reflexivity|]. cbn [forallb]. rewrite HL, IH. reflexivity. }
  rewrite E. reflexivity.
Qed.
End Ext.

Lemma hyp_ext : forall L L' pd pd' cl nM nZ h, (forall m z, L m z = L' m z) -> (forall m, pd m = pd' m) ->
  hyp_weight nM nZ L pd cl h = hyp_weight nM nZ L' pd' cl h.
Proof.
  intros L L' pd pd' cl nM nZ h HL Hp. unfold hyp_weight. f_equal. f_equal. apply map_ext. intros m. rewrite HL, Hp. reflexivity.
Qed.

Lemma asum_ext2 : forall L L' pd pd' cl nM nZ s, (forall m z, L m z = L' m z) -> (forall m, pd m = pd' m) ->
  association_sum nM nZ L pd cl s -> association_sum nM nZ L' pd' cl s.
Proof.
  intros L L' pd pd' cl nM nZ s HL Hp (hs & N & H & ->). exists hs. split; [exact N|]. split; [exact H|].
  f_equal. apply map_ext. intros h. apply hyp_ext; assumption.
Qed.

Lemma link_ext : forall C C' nM nZ u v, (forall i j, C i j = C' i j) -> connected C 0%Z nM nZ u v -> connected C' 0%Z nM nZ u v.
Proof.
  intros C C' nM nZ u v E. unfold connected. induction 1 as [a b H|a|a b H IH|a b c H1 I1 H2 I2].
  - apply rst_step. destruct H as [i j Hi Hj H]. constructor; [exact Hi|exact Hj|]. rewrite <- E. exact H.
  - apply rst_refl.
  - apply rst_sym. exact IH.
  - eapply rst_trans; eassumption.
Qed.

Lemma component_ext : forall L L' nM nZ il jl, (forall m z, L m z = L' m z) -> component L nM nZ il jl -> component L' nM nZ il jl.
Proof.
  intros L L' nM nZ il jl E (N1 & N2 & (i & j & Hi & Hj & H) & R & K). split; [exact N1|]. split; [exact N2|]. split; [|split; [exact R|]].
  - exists i, j. rewrite <- E. auto.
  - assert (ES : forall i j, support L i j = support L' i j) by (intros; unfold support; rewrite E; reflexivity).
    intros u v Hu Hv. rewrite (K u v Hu Hv). split; apply link_ext; [exact ES|]. intros. symmetry. apply ES.
Qed.

Lemma few_ext : forall k L L' pd pd' cl il jl, (forall m z, L m z = L' m z) -> (forall m, pd m = pd' m) ->
  few k L pd cl il jl -> few k L' pd' cl il jl.
Proof.
  intros k L L' pd pd' cl il jl HL Hp H hs N Hs. apply H; [exact N|]. intros h Hh. destruct (Hs h Hh) as [A B]. split; [exact A|].
  rewrite (hyp_ext _ (fun a b => L' (nth a il 0%nat) (nth b jl 0%nat)) _ (fun a => pd' (nth a il 0%nat))); [exact B|auto|auto].
Qed.

Lemma small_ext : forall L L' pd pd' cl nM nZ, (forall m z, L m z = L' m z) -> (forall m, pd m = pd' m) ->
  groups_small L pd cl nM nZ -> groups_small L' pd' cl nM nZ.
Proof.
  intros L L' pd pd' cl nM nZ HL Hp H il jl K. destruct (H il jl) as [A|A].
  - apply (component_ext L'); [intros; symmetry; apply HL|exact K].
  - left. exact A.
  - right. exact (few_ext _ _ _ _ _ _ _ _ HL Hp A).
Qed.

Section Member.
Context {G : Type}.
Variable probDet : G -> Qc.
Variable correct : nat -> G -> option (G * Qc).
Variable clutter : nat -> Qc.
Variables integral thr : Qc.
Variable kbest : nat -> nat -> (nat -> nat -> Qc) -> list (list nat).
Variable comps : (nat -> nat -> Z) -> nat -> nat -> (nat -> nat) * nat.
Notation st t := (Seen_track (tP t) (pd_of probDet t) (tG t)).
Notation seen_of ts := (map (fun t => st t) (visible probDet ts)).

Lemma rho_ok : forall (t : track G) z, rho correct (st t) z = pd_of probDet t * lik_of correct t z.
Proof.
  intros t z. unfold rho. cbn [s_g]. rewrite (gauss_fold correct). cbn [fst s_pd]. unfold lik_of. ring.
Qed.

Lemma table_ok : forall ts m z, seen_table correct thr (seen_of ts) m z = exists_table probDet correct thr (visible probDet ts) m z.
Proof.
  intros ts m z. unfold seen_table, exists_table. rewrite nth_error_map. destruct (nth_error (visible probDet ts) m) as [t|]; [|reflexivity].
  cbn [option_map]. rewrite rho_ok. reflexivity.
Qed.
Lemma spd_ok : forall ts m, seen_pd (seen_of ts) m = exists_pd probDet (visible probDet ts) m.
Proof.
  intros ts m. unfold seen_pd, exists_pd. rewrite nth_error_map. destruct (nth_error (visible probDet ts) m) as [t|]; reflexivity.
Qed.

Theorem member_factor : forall nZ (ts : list (track G)) weight,
  kbest_contract kbest -> comps_contract comps -> 0 < integral -> (0 < nZ)%nat -> 0 <= thr ->
  (forall g, 0 <= probDet g <= 1) -> (forall z, 0 <= clutter z) ->
  List.Forall fair ts -> (forall t, In t ts -> tP t * pd_of probDet t <> 1) -> ts <> [] ->
  exists l s, member_weight probDet correct clutter integral thr kbest comps nZ ts weight = Val (l * weight) /\
  (let V := visible probDet ts in
   let L := exists_table probDet correct thr V in
   association_sum (length V) nZ L (swapped nZ L (exists_pd probDet V)) clutter s /\
   0 <= l /\ l * integral <= s /\ (groups_small L (exists_pd probDet V) clutter (length V) nZ -> l * integral = s)).
Proof.
  intros nZ ts weight Hk Hco Hint HnZ Hthr Hp Hcl Hg H1 Hne.
  unfold member_weight. rewrite (legacies_ok probDet ts H1). cbn [obind snd].
  change (inview probDet ts) with (visible probDet ts).
  set (vs := seen_of ts).
  assert (HL : forall m z, 0 <= seen_table correct thr vs m z).
  { intros m z. unfold seen_table. destruct (nth_error vs m) as [s|]; [|discriminate].
    destruct (Qcltb thr (rho correct s z)) eqn:E; [|discriminate]. apply Qcltb_true in E. qclra. }
  assert (Hpd : forall m, 0 <= seen_pd vs m <= 1).
  { intros m. unfold vs. rewrite spd_ok. unfold exists_pd. destruct (nth_error (visible probDet ts) m) as [t|] eqn:E; [|split; discriminate].
    apply nth_error_In in E. apply filter_In in E. destruct E as [E _]. rewrite List.Forall_forall in Hg.
    apply (pd_01 probDet (fun _ _ => None) clutter 0); [|exact (Hg t E)].
    split; [exact Hp|]. split; [discriminate|intros; lia]. }
  destruct (rfs_exact (seen_table correct thr vs) (seen_pd vs) clutter 8 kbest HL Hpd Hcl Hk
     (fst (comps (sig (seen_table correct thr vs)) (length vs) nZ)) (snd (comps (sig (seen_table correct thr vs)) (length vs) nZ))
     integral (length vs) nZ Hint ltac:(lia) (Hco (support (seen_table correct thr vs)) (length vs) nZ)) as (l & s & El & As & A0 & A1 & A2).
  exists l, s. split.
  { destruct ts; [contradiction|]. fold vs. rewrite El. reflexivity. }
  assert (Lv : length vs = length (visible probDet ts)) by apply map_length. cbv zeta.
  rewrite Lv in *. split; [|split; [exact A0|split; [exact A1|]]].
  - eapply asum_ext2; [|intros m; apply swapped_ext|exact As]; intros; first [apply table_ok|apply spd_ok].
  - intros K. apply A2. apply (small_ext (exists_table probDet correct thr (visible probDet ts)) _ (exists_pd probDet (visible probDet ts)));
      [intros; symmetry; apply table_ok|intros; symmetry; apply spd_ok|exact K].
Qed.

End Member.

(** Contracts can be met. *)
Section Sort.
Variable T : Type.
Fixpoint put (g : gauss T) (l : list (gauss T)) : list (gauss T) :=
  match l with
  | [] => [g]
  | h :: r => if Qcltb (g_w g) (g_w h) then h :: put g r else g :: l
  end.
Fixpoint sort_ref (l : list (gauss T)) : list (gauss T) := match l with [] => [] | g :: r => put g (sort_ref r) end.

Lemma put_perm : forall g l, Permutation (g :: l) (put g l).
Proof.
  intros g. induction l as [|h r IH]; [reflexivity|]. cbn [put]. destruct (Qcltb (g_w g) (g_w h)); [|reflexivity].
  rewrite perm_swap. apply perm_skip. exact IH.
Qed.
Lemma sort_ref_ok : sort_contract sort_ref.
Proof.
  intros l. induction l as [|g r [IH1 IH2]]; [split; [reflexivity|constructor]|]. cbn [sort_ref]. split.
  - rewrite <- put_perm. apply perm_skip. exact IH1.
  - clear IH1. induction IH2 as [|h r' H IH HF]; [repeat constructor|]. cbn [put]. destruct (Qcltb (g_w g) (g_w h)) eqn:E.
    + apply Qcltb_true in E. constructor; [exact IH|]. rewrite List.Forall_forall in *. intros x Hx.
      apply (Permutation_in _ (Permutation_sym (put_perm g r'))) in Hx. destruct Hx as [<-|Hx]; [qclra|apply HF; exact Hx].
    + apply Qcltb_false in E. constructor; [constructor; assumption|]. constructor; [exact E|].
      rewrite List.Forall_forall in *. intros x Hx. specialize (HF x Hx). qclra.
Qed.
End Sort.

Definition comps_ref (C : nat -> nat -> Z) (nM nZ : nat) : (nat -> nat) * nat := (ref_cc C 0%Z nM nZ, ref_ncc C 0%Z nM nZ).
Lemma comps_ref_ok : comps_contract comps_ref.
Proof. intros C nM nZ. apply ref_ok. Qed.

(** The empty map. *)
Section Empty.
Variable T : Type.
Variable probDet : T -> Qc * bool.
Variable correct : T -> nat -> Qc * Qc * T.
Variable meas : T -> nat -> Qc * Qc.
Variable glik : T -> T -> Qc.
Variable clutter : nat -> Qc.
Variable integral : Qc.
Variables gateMD birthW tiny : Qc.
Variable expf : Qc -> Qc.
Variable kbest : nat -> nat -> (nat -> nat -> Qc) -> list (list nat).
Variable comps : (nat -> nat -> Z) -> nat -> nat -> (nat -> nat) * nat.
Variable srt : list (gauss T) -> list (gauss T).
Notation weigh := (weigh T probDet correct meas glik clutter integral gateMD birthW tiny expf kbest comps srt).

Theorem empty_weight : forall c t0 nZ weight, (- 2 ^ 31 <= c_points c < 2 ^ 31)%Z ->
  weigh c t0 nZ [] weight = Val ([], if c_cluster c then weight else tiny).
Proof.
  intros c t0 nZ weight H. unfold WeighModel.weigh, updateMap. cbn [length Nat.eqb obind rmix rweight].
  destruct (c_cluster c); [rewrite Qcmult_1_l; reflexivity|]. cbn [with_prev]. unfold importance, eval_count. cbn [length].
  assert (E : ((if (Z.of_nat 0 <? c_points c mod 2 ^ 32)%Z then Z.of_nat 0 else c_points c) =? 0)%Z = true).
  { destruct (Z.ltb_spec (Z.of_nat 0) (c_points c mod 2 ^ 32)) as [K|K]; [reflexivity|]. apply Z.eqb_eq.
    destruct (Z.lt_ge_cases (c_points c) 0) as [N|N].
    - rewrite <- (Z.mod_add _ 1), Z.mod_small in K by lia. lia.
    - rewrite Z.mod_small in K by lia. lia. }
  rewrite E. reflexivity.
Qed.
End Empty.

(** Selection of the evaluation points on the sorted mixture. *)
Theorem selection_sorted : forall (T : Type) (probDet : T -> Qc * bool) srt thr cfg (l : list (gauss T)), sort_contract srt ->
  (- 2 ^ 31 <= cfg < 2 ^ 31)%Z -> (Z.of_nat (length l) < 2 ^ 31)%Z -> cfg <> 0%Z -> l <> [] ->
  let mix := map (fun g => (g_lm g, g_w g)) (srt l) in
  let ev := pick T probDet thr (eval_count cfg (length l)) 0 (srt l) [] in
  heaviest T probDet thr cfg mix (map fst ev) /\
  exists ps, points T (srt l) ev = Val ps /\ found T probDet mix (map fst ev) ps.
Proof.
  intros T probDet srt thr cfg l Hs Hc Hl H0 Hne. destruct (Hs l) as [P S]. pose proof (Permutation_length P) as E.
  rewrite E in *. apply selection; [exact Hc|exact Hl|exact H0| |exact S].
  intros K. rewrite K in P. apply Permutation_sym, Permutation_nil in P. contradiction.
Qed.
