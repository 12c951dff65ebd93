From Coq Require Import QArith ZArith List Bool Arith Permutation Lia Sorting.Sorted.
From Verif Require Import Base ListUtil GMModel GMSpec GMProofs GMProofs2.
Import ListNotations.
Local Open Scope nat_scope.

Lemma mul_eff : forall h g w, view h (multiplyWeights g w) = map (fun v : vslot => (fst (fst v), (vw v * w)%Q, snd v)) (view h g)
  /\ gn (multiplyWeights g w) = gn g.
Proof.
  intros h [n l sf] w. split; [|reflexivity]. unfold multiplyWeights, view, viewl. simpl.
  rewrite !map_map. apply map_ext. intros [[p|] a b]; reflexivity.
Qed.

Lemma addGM_eff : forall h g o w, view h (fst (addGM g o w)) =
    view h g ++ map (fun v : vslot => (fst (fst v), (vw v * w)%Q, snd v)) (view h o)
  /\ gn (fst (addGM g o w)) = (gn g + gn o)%Z /\ view h (snd (addGM g o w)) = [] /\ gn (snd (addGM g o w)) = 0%Z.
Proof.
  intros h [n l sf] [n' l' sf'] w. simpl. split; [|auto]. unfold view, viewl. simpl.
  rewrite map_app. f_equal. rewrite !map_map. apply map_ext. intros [[p|] a b]; reflexivity.
Qed.

Lemma add_eff : forall h g F p l w am, good h g F -> nth_error h p = Some (Some l) ->
  exists h' g', addGaussian h g p w am = Val (h', g') /\
    view h' g' = view h g ++ [(Some l, w, 0%Q)] /\ gn g' = (gn g + 1)%Z /\
    (am = true -> good h' g' F) /\ (forall q, q < length h -> nth_error h' q = nth_error h q).
Proof.
  intros h [n L sf] F p l w am [Ho Hn] Hp. unfold addGaussian, deref. destruct am.
  - rewrite Hp. simpl. eexists _, _. split; [reflexivity|].
    destruct (owned_alloc h _ l Ho) as [Ho' Hf'].
    assert (HP : forall q, q < length h -> nth_error (h ++ [Some l]) q = nth_error h q).
    { intros q Hq. now rewrite nth_error_app1. }
    split; [|split; [reflexivity|split]].
    + unfold view. simpl. rewrite viewl_app. f_equal.
      * apply viewl_frame. intros q Hq. apply Hf'. apply in_or_app. now left.
      * unfold viewl, vslot_of, cell. simpl. rewrite nth_error_app2, Nat.sub_diag by lia. reflexivity.
    + intros _. split.
      * unfold ptrs. simpl. rewrite ptrsl_app. simpl. 
        eapply owned_perm; [|exact Ho']. rewrite <- app_assoc. simpl. apply Permutation_middle.
      * rewrite live_count_ptrs in *. unfold ptrs in *. simpl in *. rewrite ptrsl_app, app_length. simpl. lia.
    + exact HP.
  - eexists _, _. split; [reflexivity|]. split; [|split; [reflexivity|split; [discriminate|auto]]].
    unfold view. simpl. rewrite viewl_app. f_equal. unfold viewl, vslot_of, cell. simpl. now rewrite Hp.
Qed.

Lemma set_eff : forall h g F k lm w0 wp w, good h g F -> nth_error (view h g) k = Some (lm, w0, wp) ->
  exists g', setWeight g k w = Val g' /\ good h g' F /\ view h g' = upd (view h g) k (lm, w, w0).
Proof.
  intros h g F k lm w0 wp w Hg Hk. destruct (viewl_nth_inv _ _ _ _ Hk) as (s & Hs & E).
  destruct (setWeight_ok h g F k s w Hg Hs) as (g' & H1 & H2 & _ & H3).
  inversion E; subst. eauto.
Qed.

Lemma cell_some : forall h g F k s l, good h g F -> nth_error (gl g) k = Some s ->
  cell h s = Some l -> exists p, sp s = Some p.
Proof. intros h g F k s l Hg Hs Hc. unfold cell in Hc. destruct (sp s); eauto; discriminate. Qed.

Lemma cell_none : forall h g F k s, good h g F -> nth_error (gl g) k = Some s ->
  cell h s = None -> sp s = None.
Proof.
  intros h g F k s [Ho _] Hs Hc. destruct (sp s) as [p|] eqn:E; auto. exfalso.
  destruct (owned_deref h _ p Ho) as (l & _ & Hl).
  - apply in_or_app. left. eapply in_ptrsl; eauto. eapply nth_error_In; eauto.
  - unfold cell in Hc. rewrite E, Hl in Hc. discriminate.
Qed.

Lemma update_eff : forall h g F k x w,  good h g F -> k <> length (gl g) ->
  exists h' g' b, updateGaussian h g k x w = Val (h', g', b) /\ good h' g' F /\ intactF h h' F /\
    match nth_error (view h g) k with
    | Some (Some _, w0, _) => b = true /\ view h' g' = upd (view h g) k (Some x, if Qltb w 0 then w0 else w, w0)
    | _ => b = false /\ view h' g' = view h g
    end.
Proof.
  intros h g F k x w Hg Hk.
  destruct (nth_error (view h g) k) as [[[lm w0] wp]|] eqn:E.
  - destruct (viewl_nth_inv _ _ _ _ E) as (s & Hs & Ev). inversion Ev; subst.
    destruct (cell h s) as [l|] eqn:Ec.
    + destruct (cell_some _ _ _ _ _ _ Hg Hs Ec) as (p & Hp).
      destruct (update_ok h g F k s p x w Hg Hs Hp) as (h' & g' & H1 & H2 & H3 & _ & H4).
      exists h', g', true. auto.
    + assert (Hp := cell_none _ _ _ _ _ Hg Hs Ec).
      unfold updateGaussian, slot_at. assert (Hlt := nth_error_lt _ _ _ _ Hs).
      replace (length (gl g) <? k) with false by (symmetry; apply Nat.ltb_ge; lia).
      rewrite Hs. simpl. rewrite Hp. eexists _, _, _. split; [reflexivity|]. destruct g as [n l sf].
      split; [eapply good_sorted; eauto|]. split; [intros q _; reflexivity|]. auto.
  - apply nth_error_None in E. unfold view in E. rewrite viewl_len in E.
    unfold updateGaussian. replace (length (gl g) <? k) with true by (symmetry; apply Nat.ltb_lt; lia).
    eexists _, _, _. split; [reflexivity|]. destruct g as [n l sf].
    split; [eapply good_sorted; eauto|]. split; [intros q _; reflexivity|]. auto.
Qed.

Lemma remove_eff : forall h g F k v, good h g F -> nth_error (view h g) k = Some v ->
  exists h' g', removeGaussian h g k = Val (h', g') /\ good h' g' F /\ intactF h h' F /\
    (vlive v = true -> view h' g' = upd (view h g) k (None, 0%Q, 0%Q) /\ gn g' = (gn g - 1)%Z) /\
    (vlive v = false -> view h' g' = view h g /\ gn g' = gn g).
Proof.
  intros h g F k v Hg Hk. destruct (viewl_nth_inv _ _ _ _ Hk) as (s & Hs & ->).
  destruct (remove_ok h g F k s Hg Hs) as (h' & g' & H1 & H2 & H3 & H4 & H5).
  exists h', g'. split; [exact H1|]. split; [exact H2|]. split; [exact H3|].
  unfold vlive, vslot_of, slot_ptr in *. simpl. split.
  - destruct (cell h s) as [l|] eqn:Ec; [|discriminate]. intros _.
    destruct (cell_some _ _ _ _ _ _ Hg Hs Ec) as (p & Hp). rewrite Hp in *. auto.
  - destruct (cell h s) as [l|] eqn:Ec; [discriminate|]. intros _.
    rewrite (cell_none _ _ _ _ _ Hg Hs Ec) in *. simpl in H5. rewrite Z.sub_0_r in H5. auto.
Qed.

Lemma sort_eff : forall srt h g F, sorter_ok srt -> good h g F -> gsorted g = false ->
  good h (sortByWeight srt g) F /\ Permutation (view h (sortByWeight srt g)) (view h g) /\
  StronglySorted (fun a b : vslot => (vw b <= vw a)%Q) (view h (sortByWeight srt g)).
Proof.
  intros srt h [n l sf] F Hs [Ho Hn] E. simpl in E. subst sf. unfold sortByWeight. simpl.
  destruct (Hs l) as [HP HS]. split; [split|split].
  - eapply owned_perm; [|exact Ho]. apply Permutation_app_tail. unfold ptrs. simpl. apply ptrsl_perm. now symmetry.
  - simpl in *. rewrite Hn, !live_count_ptrs. unfold ptrs. simpl. f_equal. apply Permutation_length. apply ptrsl_perm. now symmetry.
  - unfold view. simpl. now apply viewl_perm.
  - unfold view, viewl. simpl. clear -HS. induction HS; simpl; constructor; auto.
    apply Forall_forall. intros v Hv. apply in_map_iff in Hv as (s & <- & Hin).
    rewrite Forall_forall in H. apply (H s Hin).
Qed.

Lemma merges_nil : forall md t f a b, merges md t f a [] b -> b = a.
Proof. intros md t f a b H. inversion H. reflexivity. Qed.

Lemma merge_repeat_stable : forall md t f F k h g, good h g F -> (forall i j, ~ mergeable md t (view h g) i j) ->
  exists h' g', merge_repeat md k h g t f = Val (h', g') /\ good h' g' F /\
    (forall i j, ~ mergeable md t (view h' g') i j).
Proof.
  induction k as [|k IH]; intros h g Hg Hm; simpl; [eauto 6|].
  destruct (merge_ok md h g F t f Hg) as (h1 & g1 & tr & H1 & H2 & _ & _ & H3 & _ & H4).
  rewrite H1. simpl. assert (tr = []) as -> by (apply H4; auto). apply merges_nil in H3.
  apply IH; auto. rewrite H3. exact Hm.
Qed.

Lemma merge_repeat_ok : forall md t f F k h g, good h g F -> (gn g <= Z.of_nat k)%Z ->
  exists h' g', merge_repeat md k h g t f = Val (h', g') /\ good h' g' F /\
    (forall i j, ~ mergeable md t (view h' g') i j).
Proof.
  induction k as [|k IH]; intros h g Hg Hk.
  - apply merge_repeat_stable; auto. intros i j (a & w1 & p1 & _ & _ & _ & _ & Hi & _).
    destruct (viewl_nth_inv _ _ _ _ Hi) as (s & Hs & E).
    assert (Hc : cell h s = Some a) by (unfold vslot_of in E; congruence).
    destruct (cell_some _ _ _ _ _ _ Hg Hs Hc) as (p & Hp).
    assert (Hin : In p (ptrs g)) by (eapply in_ptrsl; eauto; eapply nth_error_In; eauto).
    destruct Hg as [_ Hn]. rewrite live_count_ptrs in Hn. destruct (ptrs g); [destruct Hin|]. simpl in *. lia.
  - simpl. destruct (merge_ok md h g F t f Hg) as (h1 & g1 & tr & H1 & H2 & _ & _ & H3 & H5 & H4).
    rewrite H1. simpl. destruct tr as [|ij tr].
    + apply merges_nil in H3. apply merge_repeat_stable; auto. rewrite H3. apply H4. reflexivity.
    + apply IH; auto. simpl in H5. lia.
Qed.

Lemma gn_le_to_nat : forall g, (gn g <= Z.of_nat (Z.to_nat (gn g)))%Z.
Proof. intro. lia. Qed.
