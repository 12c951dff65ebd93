(** Proofs about getPartition and the destructor (C16). *)
From Coq Require Import ZArith List Bool Arith Lia Permutation.
From Verif Require Import Base ListUtil HungarianModel HungarianProofs PartitionModel PartitionSpec PartitionProofs.
Import ListNotations.
Local Open Scope nat_scope.

Lemma first_flag_app : forall h h' p, first_flag (h ++ h') p =
  match first_flag h p with Some e => Some e | None => first_flag h' p end.
Proof. induction h as [|[q e] h IH]; simpl; intros; auto. destruct (Nat.eqb q p); auto. Qed.

Lemma last_flag_snoc : forall h q e p, last_flag (h ++ [(q, e)]) p = if Nat.eqb q p then Some e else last_flag h p.
Proof. intros. unfold last_flag. rewrite rev_app_distr. simpl. destruct (Nat.eqb q p); auto. Qed.

Section Calls.
Variables (g0 : cgen) (L : list block).
Hypothesis Hlen : nParts g0 <= length L.

(** State after the calls [h]. *)
Definition after (h : list (nat * bool)) (g : cgen) : Prop :=
  gC g = gC g0 /\ cparts g = Some L /\ zeroP g = zeroP g0 /\ nParts g = nParts g0 /\
  (forall p il jl, p < nParts g0 -> nth_error L p = Some (il, jl) ->
     cmats g p = option_map (new_alloc g0 il jl) (first_flag h p)) /\
  (forall p e, last_flag h p = Some e -> extAlloc g p = e).

Lemma is_zero_after : forall h g p, after h g -> is_zero g p = is_zero g0 p.
Proof. intros h g p (_ & _ & H & _). unfold is_zero. now rewrite H. Qed.

Lemma new_alloc_after : forall h g il jl e, after h g -> new_alloc g il jl e = new_alloc g0 il jl e.
Proof. intros h g il jl e (H & _). unfold new_alloc. now rewrite H. Qed.

Lemma calls_ok : forall h h0 g, after h0 g -> Forall (fun q => fst q < nParts g0) h ->
  exists g' rs, calls g h = Val (g', rs) /\ after (h0 ++ h) g' /\
  forall k p ext il jl, nth_error h k = Some (p, ext) -> nth_error L p = Some (il, jl) ->
    exists first, first_flag (h0 ++ h) p = Some first /\
      nth_error rs k = Some (Got (Some (new_alloc g0 il jl first)) il jl (negb (is_zero g0 p))).
Proof.
  induction h as [|[q e] h IH]; intros h0 g HA HF.
  - exists g, []. rewrite app_nil_r. split; auto. split; auto. intros [|k]; discriminate.
  - inversion HF as [|? ? Hq HF']; subst. simpl in Hq.
    destruct (nth_error_ex _ L q) as [[il jl] Hb]; [lia|].
    assert (HA' := HA). destruct HA' as (H1 & H2 & H3 & H4 & H5 & H6).
    simpl. unfold getPartition at 1. rewrite H2, H4. apply Nat.ltb_lt in Hq as Hq'. rewrite Hq', Hb. cbn [obind].
    rewrite (H5 q il jl Hq Hb).
    set (a := match option_map (new_alloc g0 il jl) (first_flag h0 q) with Some a => a | None => new_alloc g il jl e end).
    assert (Ea : exists f1, first_flag (h0 ++ [(q, e)]) q = Some f1 /\ a = new_alloc g0 il jl f1).
    { rewrite first_flag_app. unfold a. destruct (first_flag h0 q) as [f1|] eqn:Ef; simpl.
      - exists f1. auto.
      - rewrite Nat.eqb_refl. exists e. split; auto. now apply (new_alloc_after h0). }
    destruct Ea as (f1 & Ef1 & Ea).
    match goal with |- context [calls ?G h] => set (g1 := G) end.
    assert (HA1 : after (h0 ++ [(q, e)]) g1).
    { split; [exact H1|]. split; [reflexivity|]. split; [exact H3|]. split; [reflexivity|]. split.
      - intros p il' jl' Hp Hb'. simpl. destruct (Nat.eq_dec p q) as [->|Hne].
        + rewrite fset_eq. rewrite Hb in Hb'. injection Hb' as <- <-. rewrite Ef1. simpl. now rewrite Ea.
        + rewrite fset_neq by auto. rewrite (H5 p il' jl' Hp Hb'). rewrite first_flag_app.
          destruct (first_flag h0 p); auto. simpl. destruct (Nat.eqb_spec q p); [congruence|auto].
      - intros p e' He. simpl. rewrite last_flag_snoc in He. destruct (Nat.eqb_spec q p) as [->|Hne].
        + rewrite fset_eq. congruence.
        + rewrite fset_neq by auto. auto. }
    destruct (IH _ g1 HA1 HF') as (g' & rs & E & HAf & HR).
    fold g1. rewrite E. cbn [obind fst snd].
    rewrite <- app_assoc in HAf. simpl in HAf.
    eexists. eexists. split; [reflexivity|]. split; [exact HAf|].
    intros [|k] p ext il' jl' Hk Hb'; simpl in Hk.
    + injection Hk as -> ->. rewrite Hb in Hb'. injection Hb' as <- <-.
      exists f1. split.
      * replace (h0 ++ (p, ext) :: h) with ((h0 ++ [(p, ext)]) ++ h) by (rewrite <- app_assoc; auto).
        rewrite first_flag_app, Ef1. auto.
      * simpl. rewrite Ea. now rewrite (is_zero_after h0 g p HA).
    + destruct (HR k p ext il' jl' Hk Hb') as (f2 & Ef2 & Er). exists f2. split.
      * rewrite <- app_assoc in Ef2. exact Ef2.
      * exact Er.
Qed.

Lemma last_of_first : forall h p, first_flag h p = None <-> last_flag h p = None.
Proof.
  intros h p. unfold last_flag. induction h as [|[q e] h IH]; simpl; [tauto|].
  rewrite first_flag_app. simpl. destruct (Nat.eqb_spec q p).
  - split; [discriminate|]. destruct (first_flag (rev h) p); discriminate.
  - rewrite IH. destruct (first_flag (rev h) p); tauto.
Qed.

Lemma destroy_from_ok : forall h g, after h g -> forall M p,
  (forall k b, nth_error M k = Some b -> nth_error L (p + k) = Some b /\ p + k < nParts g0) ->
  match destroy_from g M p with
  | Val n => (forall k b, nth_error M k = Some b -> ~ excess h (p + k) (snd b)) /\
             (n = 0 <-> forall k b, nth_error M k = Some b -> ~ lost h (p + k) (snd b))
  | UB _ => exists k b, nth_error M k = Some b /\ excess h (p + k) (snd b)
  | OutOfFuel => False
  end.
Proof.
  intros h g HA. induction M as [|b M IH]; intros p HM.
  - simpl. split; [intros [|k]; discriminate|]. split; auto. intros _ [|k]; discriminate.
  - assert (HM' : forall k b0, nth_error M k = Some b0 -> nth_error L (S p + k) = Some b0 /\ S p + k < nParts g0).
    { intros k b0 Hk. destruct (HM (S k) b0 Hk). replace (S p + k) with (p + S k) by lia. auto. }
    specialize (IH (S p) HM'). simpl.
    destruct (HM 0 b eq_refl) as [Hb Hp]. rewrite Nat.add_0_r in Hb, Hp.
    destruct b as [il jl]. destruct HA as (H1 & H2 & H3 & H4 & H5 & H6).
    assert (Hc := H5 p il jl Hp Hb).
    destruct (destroy_from g M (S p)) as [rest|u|]; simpl; [|destruct IH as (k & b & Hk & Hx);
      exists (S k), b; split; auto; replace (p + S k) with (S p + k) by lia; auto|auto].
    destruct IH as [IH1 IH2].
    assert (shift : forall (P : nat -> block -> Prop), P p (il, jl) ->
       (forall k b, nth_error M k = Some b -> P (S p + k) b) ->
       forall k b, nth_error ((il, jl) :: M) k = Some b -> P (p + k) b).
    { intros P P0 PS [|k] b Hk.
      - simpl in Hk. injection Hk as <-. rewrite Nat.add_0_r. auto.
      - replace (p + S k) with (S p + k) by lia. auto. }
    destruct (first_flag h p) as [f1|] eqn:Ef.
    + rewrite Hc. simpl. destruct (last_flag h p) as [l1|] eqn:El;
        [|apply last_of_first in El; congruence].
      assert (Hx : extAlloc g p = l1) by (apply H6; auto).
      unfold freed_rows. rewrite Hx. simpl.
      destruct (Nat.ltb_spec (if f1 then length il + length jl else length il)
                 (if l1 then length il + length jl else length il)) as [Hlt|Hge].
      * exists 0, (il, jl). split; auto. rewrite Nat.add_0_r. unfold excess. simpl.
        rewrite Ef, El. destruct f1, l1; try lia. split; auto. split; auto. destruct jl; [simpl in Hlt; lia|discriminate].
      * split.
        -- apply (shift (fun q b => ~ excess h q (snd b))); auto. unfold excess. simpl. rewrite Ef, El.
           intros (E1 & E2 & Hj). injection E1 as ->. injection E2 as ->. destruct jl; [congruence|simpl in Hge; lia].
        -- split.
           ++ intros Hz. apply (shift (fun q b => ~ lost h q (snd b))).
              ** unfold lost. simpl. rewrite Ef, El. intros (E1 & E2 & Hj). injection E1 as ->. injection E2 as ->.
                 destruct jl; [congruence|simpl in Hz; lia].
              ** apply IH2. lia.
           ++ intros Hall. assert (Hr : rest = 0).
              { apply IH2. intros k b Hk. replace (S p + k) with (p + S k) by lia. now apply Hall. }
              assert (H0 := Hall 0 (il, jl) eq_refl). rewrite Nat.add_0_r in H0. unfold lost in H0. simpl in H0.
              rewrite Ef, El in H0. destruct f1, l1; try lia.
              destruct jl; [simpl; lia|]. exfalso. apply H0. split; auto. split; auto. discriminate.
    + rewrite Hc. simpl. split.
      * apply (shift (fun q b => ~ excess h q (snd b))); auto. unfold excess. rewrite Ef. intros (? & _); discriminate.
      * rewrite IH2. split; intros Hall.
        -- apply (shift (fun q b => ~ lost h q (snd b))); auto. unfold lost. rewrite Ef. intros (? & _); discriminate.
        -- intros k b Hk. replace (S p + k) with (p + S k) by lia. now apply Hall.
Qed.
End Calls.

(** C16, assembled for an object on which partition() has just been called. *)
Theorem getPartition_ok : forall C nR nC ml cc ncc, components_of C ml nR nC cc ncc ->
  forall g np, partition cc ncc (cg_new C nR nC ml) = Val (g, np) ->
  exists b flag, forall h, Forall (fun q => fst q < np) h ->
  exists g' rs, calls g h = Val (g', rs) /\
  (forall k p ext, nth_error h k = Some (p, ext) -> exists r c e first,
     getPartitionSize g p = Val (length (fst (b p)), length (snd (b p)), flag p) /\
     nth_error rs k = Some (Got (Some (r, c, e)) (fst (b p)) (snd (b p)) (flag p)) /\
     first_flag h p = Some first /\ (r, c) = wanted_size first (b p) /\
     forall i j x y, nth_error (fst (b p)) i = Some x -> nth_error (snd (b p)) j = Some y ->
       e i j = Some (C x y)) /\
  match destroy g' with
  | Val n => (forall p, p < np -> ~ excess h p (snd (b p))) /\
             (n = 0 <-> forall p, p < np -> ~ lost h p (snd (b p)))
  | UB _ => exists p, p < np /\ excess h p (snd (b p))
  | OutOfFuel => False
  end.
Proof.
  intros C nR nC ml cc ncc Hcc g np E.
  assert (E' := E). unfold partition in E'. cbn [nParts cg_new Nat.eqb gR gCol gC minL] in E'.
  destruct (Nat.eqb (nR + nC) 0); [discriminate|].
  destruct (merge_final (fill cc ncc nR nC) (fill_kinds C ml nR nC cc ncc Hcc)) as (A & D & z & merged & Em & Hl & _).
  rewrite (B_length nR nC cc ncc) in Em, Hl. rewrite Em in E'. cbn [obind] in E'. injection E' as <- <-.
  match goal with |- context [calls ?G _] => set (g := G) end.
  exists (fun p => nth p (A ++ D) ([], [])), (fun p => negb (is_zero g p)).
  intros h Hh.
  assert (Hlen : nParts g <= length (A ++ D)) by (simpl; rewrite app_length; lia).
  assert (HA0 : after g (A ++ D) [] g).
  { split; auto. split; auto. split; auto. split; auto. split.
    - intros; reflexivity.
    - intros p e H. discriminate. }
  destruct (calls_ok g (A ++ D) Hlen h [] g HA0 Hh) as (g' & rs & Ec & HA & HR).
  simpl in HA, HR.
  assert (Hnth : forall p, p < ncc - merged -> nth_error (A ++ D) p = Some (nth p (A ++ D) ([], []))).
  { intros p Hp. apply nth_error_nth'. rewrite app_length. lia. }
  exists g', rs. split; [exact Ec|]. split.
  - intros k p ext Hk.
    assert (Hp : p < ncc - merged).
    { rewrite Forall_forall in Hh. apply (Hh (p, ext)). now apply nth_error_In in Hk. }
    assert (Hb := Hnth p Hp). destruct (nth p (A ++ D) ([], [])) as [il jl] eqn:Eb.
    destruct (HR k p ext il jl Hk Hb) as (first & Ef & Er).
    unfold new_alloc in Er. eexists. eexists. eexists. exists first.
    split. { unfold getPartitionSize. simpl. rewrite Hb. reflexivity. }
    split; [exact Er|]. split; [exact Ef|]. split.
    + unfold wanted_size. simpl. destruct first; reflexivity.
    + simpl. intros i j x y Hx Hy. rewrite Hx, Hy. reflexivity.
  - unfold destroy. destruct HA as (H1 & H2 & H3 & H4 & H5). rewrite H2, H4. cbn [nParts g].
    assert (HA : after g (A ++ D) h g') by (split; auto).
    assert (HM : forall k b, nth_error (firstn (ncc - merged) (A ++ D)) k = Some b ->
       nth_error (A ++ D) (0 + k) = Some b /\ 0 + k < nParts g).
    { intros k b Hk. assert (k < ncc - merged).
      { apply nth_error_lt in Hk. rewrite firstn_length in Hk. lia. }
      rewrite nth_error_firstn in Hk by auto. split; auto. }
    assert (G := destroy_from_ok g (A ++ D) Hlen h g' HA _ 0 HM).
    assert (Hpk : forall p, p < ncc - merged -> nth_error (firstn (ncc - merged) (A ++ D)) p =
       Some (nth p (A ++ D) ([], []))).
    { intros p Hp. rewrite nth_error_firstn by auto. auto. }
    destruct (destroy_from g' (firstn (ncc - merged) (A ++ D)) 0) as [n|u|]; auto.
    + destruct G as [G1 G2]. split.
      * intros p Hp. apply (G1 p _ (Hpk p Hp)).
      * rewrite G2. split.
        -- intros H p Hp. apply (H p _ (Hpk p Hp)).
        -- intros H k b Hk. destruct (HM k b Hk) as [Hk' Hlt]. cbn [Nat.add] in Hk', Hlt |- *.
           specialize (H k Hlt). rewrite (nth_error_nth (A ++ D) k ([], []) Hk') in H. exact H.
    + destruct G as (k & b & Hk & Hx). destruct (HM k b Hk) as [Hk' Hlt].
      cbn [Nat.add] in Hk', Hlt, Hx.
      exists k. split; [exact Hlt|]. rewrite (nth_error_nth (A ++ D) k ([], []) Hk'). exact Hx.
Qed.

(** Same flag in all calls for the same partition. *)
Lemma first_flag_in : forall h p e, first_flag h p = Some e -> In (p, e) h.
Proof.
  induction h as [|[q f] h IH]; simpl; intros p e H; [discriminate|].
  destruct (Nat.eqb_spec q p); [injection H as <-; subst; auto|auto].
Qed.

Theorem getPartition_same_flag : forall C nR nC ml cc ncc, components_of C ml nR nC cc ncc ->
  forall g np, partition cc ncc (cg_new C nR nC ml) = Val (g, np) ->
  exists b flag, forall h, Forall (fun q => fst q < np) h ->
  (forall p e1 e2, In (p, e1) h -> In (p, e2) h -> e1 = e2) ->
  exists g' rs, calls g h = Val (g', rs) /\ destroy g' = Val 0 /\
  forall k p ext, nth_error h k = Some (p, ext) -> exists r c e,
     nth_error rs k = Some (Got (Some (r, c, e)) (fst (b p)) (snd (b p)) (flag p)) /\
     (r, c) = wanted_size ext (b p) /\
     forall i j x y, nth_error (fst (b p)) i = Some x -> nth_error (snd (b p)) j = Some y ->
       e i j = Some (C x y).
Proof.
  intros C nR nC ml cc ncc Hcc g np E.
  destruct (getPartition_ok C nR nC ml cc ncc Hcc g np E) as (b & flag & H).
  exists b, flag. intros h Hh Hs. destruct (H h Hh) as (g' & rs & Ec & HR & HD).
  exists g', rs. split; [exact Ec|].
  assert (Hin : forall p e1 e2, first_flag h p = Some e1 -> last_flag h p = Some e2 -> e1 = e2).
  { intros p e1 e2 H1 H2. apply first_flag_in in H1, H2. apply in_rev in H2. eauto. }
  split.
  - destruct (destroy g') as [n|u|].
    + destruct HD as [_ HD]. f_equal. apply HD. intros p Hp (H1 & H2 & _). specialize (Hin _ _ _ H1 H2). discriminate.
    + destruct HD as (p & Hp & H1 & H2 & _). specialize (Hin _ _ _ H1 H2). discriminate.
    + destruct HD.
  - intros k p ext Hk. destruct (HR k p ext Hk) as (r & c & e & first & _ & Er & Ef & Es & Ee).
    exists r, c, e. split; auto. split; auto. rewrite Es. f_equal.
    apply (Hs p); [now apply first_flag_in|now apply nth_error_In in Hk].
Qed.
