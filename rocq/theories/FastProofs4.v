(** Proofs about FastSLAM::updateMap, part 4: the theorems. *)
From Coq Require Import ZArith List Bool Arith QArith Qcanon Lia Permutation Sorted Factorial.
From Verif Require Import Base ListUtil QcLra Loop HungarianModel AssignSpec AssignLemmas ReduceModel ReduceSpec
  ReduceProofs ReduceProofs2 ReduceProofs3 ReduceProofs4
  MurtyModel MurtySpec MurtyProofs MurtyPick OspaSpec OspaProofs BirthModel FastModel FastSpec FastProofs FastProofs2 FastProofs3.
Import ListNotations.
Local Open Scope nat_scope.

Section Fast.
Context {T : Type}.
Variable pdet : T -> Qc * bool.
Variable logl : T -> option (nat -> Z).
Variable correct : nat -> T -> option T.
Variable inv : nat -> T.
Variable near : T -> nat -> bool.
Variable corr : T -> nat -> T.
Variable expo : Z -> Qc.
Variable prn : list (Qc * T) -> list (Qc * T).
Variable pick : list node -> option (node * list node).
Variable big : Z.
Variable nZ : nat.
Variable pfa : Qc.
Variables lim maxDiff : Z.
Variable maxN : nat.
Variables prior lock : Qc.
Variables cntT chkT curT pruneT : nat.

Notation step cT := (updateMap pdet logl correct inv near corr expo prn pick big nZ pfa lim maxDiff maxN prior lock cT chkT curT pruneT).
Notation cons_ M := (consistent pdet logl nZ lim M).
Notation gain_ M := (gain logl lim M).
Notation upd_ := (updated pdet logl correct inv expo prn nZ pfa lim prior lock pruneT).

Lemma size_n : forall M, Nat.max (length (visible pdet 0 M)) nZ = Nat.max (seen_count pdet M) nZ.
Proof. intros M. now rewrite vis_length. Qed.

(** Nothing is done, and pi[0] written out of bounds, when at most one row is left. *)
Lemma update_settled : forall res i s w M, nth_error (fparts s) i = Some (w, M) ->
  Nat.max (seen_count pdet M) nZ <= S (length (settled pdet logl nZ lim M)) ->
  step cntT res i s = UB OutOfBounds.
Proof.
  intros res i s w M Hi Hs. unfold updateMap. rewrite Hi. cbn [of_option obind snd].
  destruct (reduce_ok (table logl nZ lim (visible pdet 0 M)) (Nat.max (length (visible pdet 0 M)) nZ) lim true)
    as (m & Cr & nr & f & fs & im & jm & E & G & _). rewrite E. cbn [obind]. rewrite G.
  assert (Hnr : nr = nred m). { unfold getReduced in G. destruct (avail m); [|discriminate]. now injection G as _ <-. }
  destruct (reduced_size pdet logl nZ lim M m E) as [R L]. rewrite size_n in R, L. cbn zeta in R.
  destruct (Nat.leb_spec (Nat.max (seen_count pdet M) nZ - length (settled pdet logl nZ lim M)) 1); [|lia].
  rewrite Hnr, R. reflexivity.
Qed.

Section Assoc.
Variable M : list (Qc * T).
Notation V := (visible pdet 0 M).
Notation n := (Nat.max (length V) nZ).
Notation C0 := (table logl nZ lim V).

Lemma consistent_ext : forall a b, (forall k, a k = b k) -> cons_ M a -> cons_ M b.
Proof.
  intros a b E [H1 H2]. split.
  - intros k z H. apply H1. now rewrite E.
  - intros k k' z H H'. apply (H2 k k' z); now rewrite E.
Qed.
Lemma gain_ext : forall a b, (forall k, a k = b k) -> gain_ M a = gain_ M b.
Proof. intros a b E. unfold gain. rewrite !total_isum. apply isum_ext. intros. now rewrite E. Qed.

(** The table da_current of an assignment of the reduced matrix and its completion name the same
    pairs. *)
Lemma assoc_completes : forall tab f nr fs Cr imap jmap r a d, (forall x y, tab x y = clamped n lim true C0 x y) ->
  splits (clamped n lim true C0) n f fs nr Cr imap jmap ->
  completes n f imap jmap r a -> assignment n a -> da_for nZ f imap jmap r d ->
  forall k, assoc pdet nZ lim M tab d k = assoc_of pdet logl nZ lim M a k.
Proof.
  intros tab f nr fs Cr imap jmap r a d Htab (Hi & Hj & P1 & P2 & _) [Hc1 Hc2] Ha [Hd1 Hd2] k.
  unfold assoc_of, assoc. destruct (index_of k (idxs V)) as [m|] eqn:Em; auto.
  assert (Hm : m < n). { apply index_of_some in Em. unfold idxs in Em. apply nth_error_lt in Em. rewrite map_length in Em. lia. }
  assert (Hp : forall o, pass nZ lim tab m o = pass nZ lim C0 m o).
  { intros [z|]; auto. cbn [pass]. rewrite Htab, D_table. reflexivity. }
  rewrite Hp. clear Hp.
  assert (Hin : In m (map fst (pairs n f) ++ imap)). { apply (Permutation_in _ (Permutation_sym P1)). apply in_seq. lia. }
  apply in_app_iff in Hin. destruct Hin as [Hin|Hin].
  - assert (Hni : ~ In m imap).
    { intros K. apply (NoDup_app_disj _ (map fst (pairs n f)) imap m); auto. apply (Permutation_NoDup (Permutation_sym P1)), seq_NoDup. }
    apply in_map_iff in Hin. destruct Hin as ([x y] & Ex & Hin). cbn in Ex. subst x. apply pairs_in in Hin. destruct Hin as [_ Hf].
    rewrite (Hd2 m Hni), Hf. rewrite (Hc1 m y Hm Hf). reflexivity.
  - apply In_nth_error in Hin. destruct Hin as [q Hq]. destruct (Hd1 q m Hq) as (q' & y & Hr & Hy & Hd).
    destruct (Hc2 q m Hq) as (q'' & y' & Hr' & Hy' & Hay). assert (q'' = q') by congruence. subst q''. assert (y' = y) by congruence. subst y'.
    rewrite Hd, Hay. cbn [pass]. destruct (Nat.ltb_spec y nZ) as [Hl|Hl]; auto.
    cbn [pass]. now rewrite (proj2 (Nat.ltb_lt _ _) Hl).
Qed.
End Assoc.

(** ** The loop over the hypotheses *)
Section HypLoop.
Variable M : list (Qc * T).
Notation V := (visible pdet 0 M).
Variable tab : mat.
Hypothesis Htab : forall m z, m < length V -> tab m z = table logl nZ lim V m z.
Hypothesis Hpd : forall w t, In (w, t) M -> (0 <= fst (pdet t) <= 1)%Qc.
Hypothesis Hpfa : (0 < pfa)%Qc.
Hypothesis Hprior : (0 < prior)%Qc.
Hypothesis Hprior1 : (prior < 1)%Qc.
Variable da : list (nat -> option nat).
Variable w' : Qc.
Variables N i : nat.
Notation H := (length da).
Hypothesis Hi : i < N.
Hypothesis HH : 0 < H.
Notation slot := (fun h => slot_of i h (N + H - 1)).

Definition clean (L : nat) (s : @fast T) : Prop :=
  length (fcands s) = L /\ length (ffov s) = L /\ Forall (eq []) (fcands s).

Lemma slot_inj : forall h h', h < H -> h' < H -> slot h = slot h' -> h = h'.
Proof using Hi HH. intros h h' L1 L2. unfold slot_of. destruct (Nat.eqb_spec h 0), (Nat.eqb_spec h' 0); lia. Qed.
Lemma slot_lt : forall h, h < H -> slot h < N + H - 1.
Proof using Hi HH. intros h L. unfold slot_of. destruct (Nat.eqb_spec h 0); lia. Qed.

Definition hinv (L : nat) (base : list (Qc * list (Qc * T))) (h : nat) (s : fast) : Prop :=
  clean L s /\ length (fparts s) = N + H - 1 /\
  (forall h' d, h' < h -> nth_error da h' = Some d ->
     nth_error (fparts s) (slot h') = Some (upd_ w' M (assoc pdet nZ lim M tab d))) /\
  (forall h', h <= h' < H -> nth_error (fparts s) (slot h') = Some (w', M)) /\
  (forall j, (forall h', h' < H -> slot h' <> j) -> nth_error (fparts s) j = nth_error base j).

Lemma hyp_loop : forall L base s, N + H - 1 <= L -> hinv L base 0 s -> exists s',
  for_ H (hyp_step correct inv near corr expo prn nZ pfa lim prior lock 1 chkT curT pruneT tab V da i) s = Val s' /\ hinv L base H s'.
Proof using Htab Hpd Hpfa Hprior Hprior1 Hi HH.
  intros L base s HL Hs. apply for_inv; [exact Hs|]. clear s Hs.
  intros h s Hh ((C1 & C2 & C3) & I1 & I2 & I3 & I4).
  destruct (nth_error_ex _ da h Hh) as [d Hd].
  unfold hyp_step. rewrite Hd. cbn [of_option obind]. rewrite I1.
  assert (Hsl := slot_lt h Hh). cbn beta in Hsl.
  rewrite (I3 h) by lia. cbn [of_option obind].
  destruct (nth_error_ex _ (fcands s) (slot_of i h (N + H - 1)) ltac:(lia)) as [cs Hcs].
  assert (cs = []). { rewrite Forall_forall in C3. symmetry. apply C3. now apply nth_error_In in Hcs. } subst cs.
  rewrite Hcs. cbn [of_option obind].
  destruct (nth_error_ex _ (ffov s) (slot_of i h (N + H - 1)) ltac:(lia)) as [fv Hfv]. rewrite Hfv. cbn [of_option obind].
  destruct (hyp_update_ok pdet logl correct inv near corr expo prn nZ pfa lim prior lock chkT curT pruneT Hpfa Hprior Hprior1 M tab d Htab Hpd w') as [fov E].
  rewrite E. cbn [obind]. eexists. split; [reflexivity|]. split; [|split; [|split; [|split]]]; cbn [fparts fcands ffov].
  - split; [|split]; cbn [fcands ffov]; [now rewrite upd_length|now rewrite upd_length|].
    rewrite (upd_same _ _ _ _ Hcs). exact C3.
  - now rewrite upd_length.
  - intros h' d' Hh' Hd'. destruct (Nat.eq_dec h' h) as [->|Hne].
    + rewrite nth_error_upd_eq by lia. congruence.
    + rewrite nth_error_upd_neq. { apply I2; [lia|auto]. }
      intros K. apply Hne. symmetry. apply slot_inj; [lia|apply nth_error_lt in Hd'; lia|exact K].
  - intros h' Hh'. rewrite nth_error_upd_neq. { apply I3. lia. }
    intros K. apply slot_inj in K; lia.
  - intros j Hj. rewrite nth_error_upd_neq by (apply Hj; exact Hh). now apply I4.
Qed.
End HypLoop.

Lemma split_ok : forall res i nH w M L s, nth_error (fparts s) i = Some (w, M) -> 0 < nH ->
  clean L s -> length (fparts s) + nH - 1 <= L ->
  exists s1, (if 1 <? nH then split res i nH (w, M) s else Val s) = Val s1 /\ clean L s1 /\
    fparts s1 = upd (fparts s) i ((w / QcN nH)%Qc, M) ++ repeat ((w / QcN nH)%Qc, M) (nH - 1).
Proof.
  intros res i nH w M L s Hi Hn Hc HL. assert (Hil := nth_error_lt _ _ _ _ Hi). destruct (Nat.ltb_spec 1 nH) as [H1|H1].
  - unfold split. cbn [fst snd]. destruct res; [|eexists; split; [reflexivity|split; [exact Hc|reflexivity]]].
    destruct Hc as (C1 & C2 & C3).
    destruct (nth_error_ex _ (fcands s) i ltac:(lia)) as [c Ec]. rewrite Ec. cbn [of_option obind].
    assert (c = []). { rewrite Forall_forall in C3. symmetry. apply C3. now apply nth_error_In in Ec. } subst c.
    set (parts := upd (fparts s) i ((w / QcN nH)%Qc, M) ++ repeat ((w / QcN nH)%Qc, M) (nH - 1)).
    assert (Lp : length parts = length (fparts s) + nH - 1) by (unfold parts; rewrite app_length, upd_length, repeat_length; lia).
    destruct (for_inv (fun _ cs => length cs = L /\ Forall (eq []) cs)
      (fun h cs => if length parts - S h <? length cs then Val (upd cs (length parts - S h) (@nil (cand T))) else UB OutOfBounds) (nH - 1) (fcands s))
      as (cs & E & D1 & D2).
    + split; [exact C1|exact C3].
    + intros h cs Hh [D1 D2]. rewrite (proj2 (Nat.ltb_lt (length parts - S h) (length cs))) by lia.
      eexists. split; [reflexivity|]. split; [now rewrite upd_length|].
      destruct (nth_error_ex _ cs (length parts - S h) ltac:(lia)) as [x Hx].
      assert (x = []). { rewrite Forall_forall in D2. symmetry. apply D2. now apply nth_error_In in Hx. } subst x. now rewrite (upd_same _ _ _ _ Hx).
    + rewrite E. cbn [obind]. eexists. split; [reflexivity|]. split; [|reflexivity]. repeat split; cbn; auto.
  - assert (nH = 1) by lia. subst nH. exists s. split; [reflexivity|]. split; [exact Hc|]. cbn [Nat.sub repeat]. rewrite app_nil_r.
    replace (w / QcN 1)%Qc with w; [now rewrite upd_same|]. change (QcN 1) with 1%Qc. field. discriminate.
Qed.

(** Result of updateMap. *)
Theorem update_ok : forall res i s w M hi L,
  queue_contract pick -> nth_error (fparts s) i = Some (w, M) ->
  (0 < pfa)%Qc -> (0 < prior)%Qc -> (prior < 1)%Qc -> (forall w t, In (w, t) M -> (0 <= fst (pdet t) <= 1)%Qc) ->
  0 < maxN -> (0 < maxDiff)%Z ->
  (forall w t z, In (w, t) M -> (loglik logl lim t z <= hi)%Z) -> (lim <= hi)%Z ->
  ((Z.of_nat (Nat.max (seen_count pdet M) nZ) - 1) * hi - Z.of_nat (Nat.max (seen_count pdet M) nZ) * lim < big)%Z ->
  clean L s -> length (fparts s) + maxN - 1 <= L ->
  S (length (settled pdet logl nZ lim M)) < Nat.max (seen_count pdet M) nZ ->
  exists s' l, step 1 res i s = Val s' /\ clean L s' /\ 1 <= length l <= maxN /\
    length (fparts s') = length (fparts s) + length l - 1 /\
    (forall j, j < length (fparts s) -> j <> i -> nth_error (fparts s') j = nth_error (fparts s) j) /\
    (forall h a, nth_error l h = Some a -> cons_ M a /\
       nth_error (fparts s') (if h =? 0 then i else length (fparts s') - h) = Some (upd_ (w / QcN (length l))%Qc M a)) /\
    (forall a, nth_error l 0 = Some a -> (forall b, cons_ M b -> (gain_ M b <= gain_ M a)%Z) /\
       forall h b, nth_error l h = Some b -> (gain_ M a - gain_ M b < maxDiff)%Z) /\
    (forall h h' a b, h < h' -> nth_error l h = Some a -> nth_error l h' = Some b -> (gain_ M b <= gain_ M a)%Z) /\
    (forall h h' a a', h < h' -> nth_error l h = Some a -> nth_error l h' = Some a' -> exists b b',
       assignment (Nat.max (length (visible pdet 0 M)) nZ) b /\ assignment (Nat.max (length (visible pdet 0 M)) nZ) b' /\ b <> b' /\
       (forall k, a k = assoc_of pdet logl nZ lim M b k) /\ (forall k, a' k = assoc_of pdet logl nZ lim M b' k)).
Proof.
  intros res i s w M hi L Hpick Hi Hpfa Hprior Hprior1 Hpd HmaxN HmaxD Hhi Hlh Hbig Hclean HL Hset.
  unfold updateMap. rewrite Hi. cbn [of_option obind snd].
  set (V := visible pdet 0 M). set (n := Nat.max (length V) nZ). set (C0 := table logl nZ lim V).
  destruct (reduce_ok C0 n lim true) as (m & Cr & nr & f & fs & imap & jmap & E & G & HcC & Hforced & Hforced2 & Hsplit & Hcompl).
  rewrite E. cbn [obind]. rewrite G.
  assert (Hnr : nr = nred m). { unfold getReduced in G. destruct (avail m); [|discriminate]. now injection G as _ <-. }
  destruct (reduced_size pdet logl nZ lim M m E) as [R LS]. fold V n in R, LS. cbn zeta in R.
  assert (En : n = Nat.max (seen_count pdet M) nZ) by (unfold n, V; now rewrite vis_length).
  rewrite <- En in Hset, Hbig.
  destruct (Nat.leb_spec (n - length (settled pdet logl nZ lim M)) 1) as [?|Hu]; [lia|].
  assert (Hnr2 : 2 <= nr <= n) by lia. destruct (Nat.eqb_spec nr 0); [lia|].
  assert (Hs := Hsplit). destruct Hs as (Li & Lj & P1 & P2 & Efs & HCr).
  assert (Hndi : NoDup imap).
  { apply (NoDup_app_r _ (map fst (pairs n f))). apply (Permutation_NoDup (Permutation_sym P1)), seq_NoDup. }
  assert (Hdom : dominating nr Cr big).
  { exists lim, hi. split; [|split; [exact Hlh|]].
    - intros x y Hx Hy. destruct (nth_error_ex _ imap x ltac:(lia)) as [x' Ex]. destruct (nth_error_ex _ jmap y ltac:(lia)) as [y' Ey].
      rewrite (HCr x y x' y' Ex Ey). unfold C0, n, V. rewrite D_table. split; [apply table_ge|].
      unfold table. destruct (nth_error (visible pdet 0 M) x') as [[[k t] pd]|] eqn:Ev; [|exact Hlh].
      destruct (y' <? nZ); [|exact Hlh]. destruct (vis_nth _ _ _ _ _ _ _ Ev) as (_ & [w0 Hw0] & _).
      assert (K := Hhi w0 t y' (nth_error_In _ _ Hw0)). unfold loglik in K. destruct (logl t); lia.
    - assert (0 <= (Z.of_nat n - Z.of_nat nr) * (hi - lim))%Z by (apply Z.mul_nonneg_nonneg; lia). lia. }
  destruct (murty_all pick Hpick nr Cr big Hdom) as (outs & Hcalls & Hnd & Hall & Hfact & Hsorted).
  assert (Hhead : exists r0 t, outs = r0 :: t).
  { destruct outs as [|r0 t]; [|eauto]. cbn in Hfact. assert (K := lt_O_fact nr). lia. }
  destruct Hhead as (r0 & t0 & Eouts).
  assert (Hasg : forall r, In r outs -> assignment nr r) by (intros r Hr; now apply Hall).
  destruct (hyps_gen pick nZ maxDiff maxN nr f imap jmap Cr Li Lj Hndi outs r0 Hasg (ex_intro _ t0 Eouts)
    (S maxN) (murty_new Cr nr big) 0 [] [] outs) as (H & ds & Eh & Lds & HH & Hds & Hmore); auto.
  { intros K. congruence. }
  { intros h d K. destruct h; discriminate. }
  { lia. }
  { lia. }
  rewrite Eh. cbn [obind].
  (* at least one hypothesis *)
  assert (H1 : 1 <= H).
  { destruct (Nat.eq_dec H 0) as [E0|E0]; [|lia]. exfalso. specialize (Hmore ltac:(lia) r0). rewrite E0, Eouts in Hmore. specialize (Hmore eq_refl). lia. }
  destruct (Nat.eqb_spec H 0); [lia|].
  destruct (split_ok res i H w M L s Hi ltac:(lia) Hclean ltac:(lia)) as (s1 & Es1 & Hc1 & Hp1). rewrite Es1. cbn [obind].
  assert (Hil := nth_error_lt _ _ _ _ Hi).
  assert (Htab : forall x z, x < length V -> cC m x z = table logl nZ lim V x z).
  { intros x z _. rewrite HcC. unfold C0, n, V. apply D_table. }
  rewrite <- Lds in *. set (w' := (w / QcN (length ds))%Qc) in *.
  destruct (hyp_loop M (cC m) Htab Hpd Hpfa Hprior Hprior1 ds w' (length (fparts s)) i Hil ltac:(lia) L (fparts s) s1 ltac:(lia)) as (s' & Es' & I0 & I1 & I2 & I3 & I4).
  { split; [exact Hc1|]. assert (Lp1 : length (fparts s1) = length (fparts s) + length ds - 1) by (rewrite Hp1, app_length, upd_length, repeat_length; lia).
    split; [exact Lp1|]. split; [intros; lia|]. split.
    - intros h' Hh'. rewrite Hp1. unfold slot_of. destruct (Nat.eqb_spec h' 0).
      + rewrite nth_error_app1 by now rewrite upd_length. now apply nth_error_upd_eq.
      + rewrite nth_error_app2 by (rewrite upd_length; lia). rewrite upd_length. apply nth_error_repeat. lia.
    - intros j Hj. destruct (Nat.lt_ge_cases j (length (fparts s))) as [Hlt|Hge].
      + rewrite Hp1, nth_error_app1 by now rewrite upd_length. rewrite nth_error_upd_neq; auto.
        intros ->. apply (Hj 0); [lia|reflexivity].
      + rewrite (proj2 (nth_error_None (fparts s) j)) by lia. apply nth_error_None. rewrite Lp1.
        destruct (Nat.lt_ge_cases j (length (fparts s) + length ds - 1)) as [K|K]; [|exact K]. exfalso.
        apply (Hj (length (fparts s) + length ds - 1 - j)); [lia|]. unfold slot_of.
        destruct (Nat.eqb_spec (length (fparts s) + length ds - 1 - j) 0); lia. }
  exists s', (map (assoc pdet nZ lim M (cC m)) ds).
  rewrite map_length.
  (* each hypothesis stands for an assignment of the table *)
  assert (Hstand : forall h a, nth_error (map (assoc pdet nZ lim M (cC m)) ds) h = Some a -> exists d r b,
    nth_error ds h = Some d /\ a = assoc pdet nZ lim M (cC m) d /\ nth_error outs h = Some r /\ (score Cr r0 - score Cr r < maxDiff)%Z /\
    assignment n b /\ (forall k, a k = assoc_of pdet logl nZ lim M b k) /\ score (clamped n lim true C0) b = (fs + score Cr r)%Z /\
    (optimal true nr Cr r -> optimal true n (clamped n lim true C0) b) /\ completes n f imap jmap r b).
  { intros h a Ha. rewrite nth_error_map in Ha. destruct (nth_error ds h) as [d|] eqn:Ed; [|discriminate]. cbn in Ha. injection Ha as <-.
    destruct (Hds h d Ed) as (r & [Hr Hsc] & Hda). destruct (Hcompl r) as (b & Hcb & Hab & Hsb & Hopt). { apply Hasg. now apply nth_error_In in Hr. }
    exists d, r, b. split; [reflexivity|]. split; [reflexivity|]. split; [exact Hr|]. split; [exact Hsc|]. split; [exact Hab|]. split; [|split; [exact Hsb|split; [exact Hopt|exact Hcb]]]. intros k. unfold C0, n, V in *. eapply assoc_completes; eauto. }
  assert (Hg : forall h a, nth_error (map (assoc pdet nZ lim M (cC m)) ds) h = Some a -> exists r, nth_error outs h = Some r /\
     (score Cr r0 - score Cr r < maxDiff)%Z /\ gain_ M a = (fs + score Cr r - Z.of_nat n * lim)%Z).
  { intros h a Ha. destruct (Hstand h a Ha) as (d & r & b & _ & _ & Hr & Hsc & Hab & Hk & Hsb & _ & _). exists r. split; [auto|]. split; [auto|].
    rewrite (gain_ext M _ _ Hk). unfold C0, n, V in Hsb. rewrite score_gain in Hsb by exact Hab. fold V in Hsb. fold n in Hsb. lia. }
  assert (Hr0 : forall r, In r outs -> (score Cr r <= score Cr r0)%Z).
  { intros r Hr. rewrite Eouts in Hr, Hsorted. inversion Hsorted as [|? ? _ HF]; subst. destruct Hr as [<-|Hr]; [lia|]. rewrite Forall_forall in HF. now apply HF. }
  split; [exact Es'|]. split; [exact I0|]. split; [lia|]. split; [exact I1|]. split; [|split; [|split; [|split]]].
  - intros j Hj Hne. apply I4. intros h' Hh'. unfold slot_of. destruct (Nat.eqb_spec h' 0); lia.
  - intros h a Ha. destruct (Hstand h a Ha) as (d & r & b & Ed & -> & Hr & Hsc & Hab & Hk & _). split.
    + apply (consistent_ext M (assoc_of pdet logl nZ lim M b)); [intros k; now rewrite Hk|]. now apply assoc_consistent.
    + assert (K := I2 h d ltac:(now apply nth_error_lt in Ed) Ed). rewrite I1. unfold slot_of in K. exact K.
  - intros a Ha. destruct (Hg 0 a Ha) as (r & Hr & _ & Ega). assert (r = r0) by (rewrite Eouts in Hr; cbn in Hr; congruence). subst r. split.
    + intros b Hb. destruct (Hstand 0 a Ha) as (d & r & b' & _ & _ & Hr' & _ & Hab & _ & Hsb & Hopt & _). assert (r = r0) by congruence. subst r.
      destruct (gain_bound pdet logl nZ lim M b Hb) as (a' & Ha' & Hle). fold V in Hle, Ha'. fold n in Hle, Ha'. fold C0 in Hle.
      assert (Ho : optimal true nr Cr r0).
      { split; [apply Hasg; rewrite Eouts; now left|]. intros q Hq. apply Hall in Hq. cbn. now apply Hr0. }
      destruct (Hopt Ho) as [_ K]. specialize (K a' Ha'). cbn in K. lia.
    + intros h b Hb. destruct (Hg h b Hb) as (r' & Hr' & Hsc' & Egb). lia.
  - intros h h' a b Hlt Ha Hb. destruct (Hg h a Ha) as (r & Hr & _ & Ega). destruct (Hg h' b Hb) as (r' & Hr' & _ & Egb).
    enough (score Cr r' <= score Cr r)%Z by lia.
    clear - Hsorted Hlt Hr Hr'. revert h h' Hlt Hr Hr'. induction Hsorted as [|x l Hss IH HF]; intros h h' Hlt Hr Hr'; [destruct h; discriminate|].
    destruct h' as [|h']; [lia|]. cbn in Hr'. destruct h as [|h].
    + cbn in Hr. injection Hr as ->. rewrite Forall_forall in HF. apply HF. now apply nth_error_In in Hr'.
    + cbn in Hr. apply (IH h h'); auto. lia.
  - intros h h' a a' Hlt Ha Ha'. destruct (Hstand h a Ha) as (d & r & b & _ & _ & Hr & _ & Hab & Hk & _ & _ & Hcb).
    destruct (Hstand h' a' Ha') as (d' & r' & b' & _ & _ & Hr' & _ & Hab' & Hk' & _ & _ & Hcb').
    exists b, b'. split; [exact Hab|]. split; [exact Hab'|]. split; [|split; auto].
    intros <-. assert (Err : r = r').
    { assert (Lr := assignment_length _ _ (Hasg r (nth_error_In _ _ Hr))). assert (Lr' := assignment_length _ _ (Hasg r' (nth_error_In _ _ Hr'))).
      assert (Hndj : NoDup jmap). { apply (NoDup_app_r _ (map snd (pairs n f))). apply (Permutation_NoDup (Permutation_sym P2)), seq_NoDup. }
      apply list_ext. intros q. destruct (Nat.lt_ge_cases q nr) as [Hq|Hq]; [|rewrite !(proj2 (nth_error_None _ _)) by lia; reflexivity].
      destruct (nth_error_ex _ imap q ltac:(lia)) as [x Hx].
      destruct (proj2 Hcb q x Hx) as (q1 & y1 & E1 & E2 & E3). destruct (proj2 Hcb' q x Hx) as (q2 & y2 & F1 & F2 & F3).
      rewrite E1, F1. f_equal. assert (y1 = y2) by congruence. subst y2.
      apply (NoDup_nth_error jmap); auto; [apply nth_error_lt in E2; exact E2|congruence]. }
    assert (h = h'); [|lia]. apply (NoDup_nth_error outs); auto; [apply nth_error_lt in Hr; exact Hr|congruence].
Qed.
End Fast.
