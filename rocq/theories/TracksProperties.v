(** C09, C42, C53, C57: track lists of the multi-Bernoulli filters.
    [tgood h ts F]: memory h is well formed, tracks ts own their landmarks and
    everybody else owns the landmarks F. *)
From Coq Require Import QArith ZArith List Bool Arith Lia Permutation.
From Verif Require Import Base ListUtil GMModel GMSpec GMProofs GMProofs3 GMProperties
  TracksModel TracksSpec TracksProofs TracksProofs2 TracksProofs3.
Import ListNotations.
Local Open Scope Q_scope.

(** Example data: four tracks with one Gaussian each, one without. *)
Definition tr (P : Q) (p : nat) : track := Trk P (1 # 9) (GM 1 [Slot (Some p) 1 0] false).
Definition tr0 (P : Q) : track := Trk P 0 gm_new.
Definition heap4 : heap := [Some (L1 1 1); Some (L1 2 1); Some (L1 3 1); Some (L1 4 1); Some (L1 9 1)].

Lemma tgood_ex : forall h ts F, NoDup (flat_map tptrs ts ++ F) ->
  (forall p, In p (flat_map tptrs ts ++ F) -> exists l, nth_error h p = Some (Some l)) ->
  (forall p, (p < length h)%nat -> In p (flat_map tptrs ts ++ F)) ->
  Forall (fun t => gn (tg t) = live_count (tg t)) ts -> tgood h ts F.
Proof.
  intros h ts F H1 H2 H3 H4. split; [split; auto|].
  - intro p. split; auto. intros [l Hl]. apply H3. apply nth_error_Some. congruence.
  - rewrite Forall_forall in H4. exact H4.
Qed.
Ltac tg_solve := apply tgood_ex;
  [ vm_compute; repeat (constructor; [simpl; intuition lia|]); constructor
  | intros p Hp; vm_compute in Hp; repeat (destruct Hp as [<-|Hp]; [eexists; vm_compute; reflexivity|]); destruct Hp
  | intros p Hp; simpl in Hp; vm_compute; lia
  | repeat constructor ].

(** ** C09 *)

(** Full statement: pruneTracks(t) always leaves exactly the tracks with
    P >= t.  It does whenever the list does not end with a block of tracks to
    prune one of which still holds a Gaussian ... *)
Theorem C09_pruneTracks_partial : forall h ts F t, tgood h ts F ->
  ~ doomed_tail t (tviews h ts) ->
  exists h' ts', pruneTracks h ts t = Val (h', ts') /\ tgood h' ts' F /\ intact h h' F /\
    Permutation (tviews h' ts') (filter (fun v => negb (Qltb (tvP v) t)) (tviews h ts)).
Proof. exact pruneTracks_ok. Qed.
Print Assumptions C09_pruneTracks_partial.

(** ... and reads deleted landmarks exactly in the remaining case. *)
Theorem C09_ub_iff : forall h ts F t, tgood h ts F ->
  (pruneTracks h ts t = UB UseAfterFree <-> doomed_tail t (tviews h ts)).
Proof. exact pruneTracks_ub_iff. Qed.
Print Assumptions C09_ub_iff.

Definition ts9 : list track := [tr (1 # 10) 0; tr (9 # 10) 1; tr (1 # 5) 2; tr (1 # 2) 3].
Lemma ts9_good : tgood heap4 ts9 [4%nat].
Proof. tg_solve. Qed.
Example C09_ex : tgood heap4 ts9 [4%nat] /\ ~ doomed_tail (1 # 2) (tviews heap4 ts9) /\
  exists h' ts', pruneTracks heap4 ts9 (1 # 2) = Val (h', ts') /\ map tp ts' = [1 # 2; 9 # 10].
Proof.
  split; [exact ts9_good|]. split.
  - intros (A & x & B & E & _ & Hx & HB). unfold tviews, ts9 in E. simpl in E.
    do 4 (destruct A as [|? A]; simpl in E; [inversion E; subst; first [discriminate Hx | now specialize (HB _ (or_intror (or_intror (or_introl eq_refl)))) | now specialize (HB _ (or_intror (or_introl eq_refl))) | now specialize (HB _ (or_introl eq_refl)) ]|]; inversion E; subst; clear E; rename H1 into E).
    destruct A; discriminate.
  - eexists _, _. split; vm_compute; reflexivity.
Qed.

(** The obvious call, a single track below the threshold. *)
Theorem C09_refuted : exists h ts t, tgood h ts [] /\ pruneTracks h ts t = UB UseAfterFree.
Proof.
  exists [Some (L1 1 1)], [tr (1 # 10) 0], (1 # 2). split; [tg_solve|vm_compute; reflexivity].
Qed.
Print Assumptions C09_refuted.

(** ** C42 *)

(** The list of unused measurements is right, and the exact result and the
    exact definedness of the compaction: W are the new tracks (one per
    measurement), u of which have zero existence probability. *)
Theorem C42_exact : forall h ts F nM nZ, tgood h ts F -> length ts = (nM + nZ)%nat ->
  let V := tviews h ts in let W := skipn nM V in let k := (nZ - zcount W)%nat in
  (self_fill W <-> compact h ts nM nZ = UB UseAfterFree) /\
  (~ self_fill W -> exists h' ts', compact h ts nM nZ = Val (h', ts', zeros W) /\
     tgood h' ts' F /\ intact h h' F /\
     tviews h' ts' = firstn nM V ++ fill (firstn k W) (rev (skipn k W))).
Proof. exact compact_spec. Qed.
Print Assumptions C42_exact.

(** That result is the right set of tracks (every new track with non-zero
    probability once, nothing else) exactly when, among the last u new tracks,
    the unused ones come first.  Full statement: always. *)
Theorem C42_right_iff_partial : forall W, let k := (length W - zcount W)%nat in
  (Permutation (fill (firstn k W) (rev (skipn k W))) (filter (fun v => negb (zeroP v)) W) <-> tidy W).
Proof. exact tidy_iff. Qed.
Print Assumptions C42_right_iff_partial.

Definition ts42 : list track := [tr (1 # 2) 0; tr (1 # 3) 1; tr0 0; tr (1 # 4) 2; tr (1 # 5) 3].
Example C42_ex : tgood heap4 ts42 [4%nat] /\
  (exists h' ts', compact heap4 ts42 1 4 = Val (h', ts', [1%nat]) /\
     map tp ts' = [1 # 2; 1 # 3; 1 # 5; 1 # 4]) /\ tidy (skipn 1 (tviews heap4 ts42)).
Proof.
  split; [tg_solve|]. split.
  - eexists _, _. split; vm_compute; reflexivity.
  - exists [], (skipn 4 (tviews heap4 ts42)). split; [reflexivity|]. split; [intros v []|].
    intros v [<-|[]]. reflexivity.
Qed.

(** Three measurements, the middle one used: the used track is lost and an
    unused one is kept. *)
Theorem C42_refuted : exists h ts h' ts' us, tgood h ts [] /\
  compact h ts 0 3 = Val (h', ts', us) /\ us = [0; 2]%nat /\
  map tvP (filter (fun v => negb (zeroP v)) (tviews h ts)) = [1 # 2] /\
  map tvP (tviews h' ts') = [0].
Proof.
  exists [Some (L1 1 1)], [tr0 0; tr (1 # 2) 0; tr0 0]. do 3 eexists.
  split; [tg_solve|]. split; [vm_compute; reflexivity|]. vm_compute. auto.
Qed.
Print Assumptions C42_refuted.

(** An unused track that still holds (zero-likelihood) Gaussians is copied onto
    itself. *)
Theorem C42_ub_refuted : exists h ts, tgood h ts [] /\ compact h ts 0 2 = UB UseAfterFree.
Proof.
  exists [Some (L1 1 1); Some (L1 2 2)], [tr (1 # 2) 0; tr 0 1].
  split; [tg_solve|vm_compute; reflexivity].
Qed.
Print Assumptions C42_ub_refuted.

(** ** C53 *)

(** Full statement: getMaxGaussian returns a live Gaussian of maximal weight.
    Holds for mixtures without empty slots; without a positive weight it is the
    first Gaussian. *)
Theorem C53_max_partial : forall g, gn g = live_count g -> no_holes g -> gl g <> [] ->
  exists i s p, getMaxGaussian g = Val (Some p) /\ nth_error (gl g) i = Some s /\ sp s = Some p /\
   ((exists j sj, nth_error (gl g) j = Some sj /\ 0 < sw sj) ->
      forall j sj, nth_error (gl g) j = Some sj -> sw sj <= sw s) /\
   ((forall j sj, nth_error (gl g) j = Some sj -> sw sj <= 0) -> i = 0%nat).
Proof. exact getMax_ok. Qed.
Print Assumptions C53_max_partial.

Theorem C53_empty_ub : forall g, gn g = live_count g -> gl g = [] -> getMaxGaussian g = UB OutOfBounds.
Proof. exact getMax_empty. Qed.
Print Assumptions C53_empty_ub.

Definition g53 : gm := GM 3 [Slot (Some 7%nat) (1 # 2) 0; Slot (Some 3%nat) (3 # 4) 0; Slot (Some 5%nat) (1 # 4) 0] false.
Example C53_ex : no_holes g53 /\ gn g53 = live_count g53 /\ getMaxGaussian g53 = Val (Some 3%nat).
Proof.
  split; [|split; vm_compute; reflexivity]. intros s Hs. simpl in Hs.
  destruct Hs as [<-|[<-|[<-|[]]]]; discriminate.
Qed.

(** With empty slots NULL, or a lighter Gaussian, is returned. *)
Theorem C53_refuted : exists h g g' p q, good h g [q] /\ good h g' [] /\
  gl g = [Slot None 0 0; Slot (Some p) 1 0] /\ getMaxGaussian g = Val None /\
  gl g' = [Slot (Some p) 1 0; Slot None 0 0; Slot (Some q) 3 0] /\ getMaxGaussian g' = Val (Some p).
Proof.
  exists [Some (L1 1 1); Some (L1 2 2)], (GM 1 [Slot None 0 0; Slot (Some 0%nat) 1 0] false),
    (GM 2 [Slot (Some 0%nat) 1 0; Slot None 0 0; Slot (Some 1%nat) 3 0] false), 0%nat, 1%nat.
  split; [|split; [|vm_compute; auto]]; apply good_ex;
  [ vm_compute; constructor; [simpl; intuition lia|]; constructor; [simpl; intuition lia|]; constructor
  | reflexivity
  | intros p Hp; vm_compute in Hp; repeat (destruct Hp as [<-|Hp]; [eexists; vm_compute; reflexivity|]); destruct Hp
  | intros p Hp; simpl in Hp; vm_compute; lia
  | vm_compute; constructor; [simpl; intuition lia|]; constructor; [simpl; intuition lia|]; constructor
  | reflexivity
  | intros p Hp; vm_compute in Hp; repeat (destruct Hp as [<-|Hp]; [eexists; vm_compute; reflexivity|]); destruct Hp
  | intros p Hp; simpl in Hp; vm_compute; lia ].
Qed.
Print Assumptions C53_refuted.

(** ** C57 *)

(** GMMultiBernoulli::copyTo makes an equal, separately owned copy, whatever the
    destination contained; the source is untouched and no memory is leaked. *)
Theorem C57_copyTo : forall h src dst F, tgood h (src ++ dst) F ->
  exists h' dst', mb_copyTo h src dst = Val (h', dst') /\ tgood h' (src ++ dst') F /\ intact h h' (flat_map tptrs src  ++ F) /\ tviews h' dst' = tviews h src /\ tviews h' src = tviews h src.
Proof. exact mb_copy_ok. Qed.
Print Assumptions C57_copyTo.

Example C57_ex : exists h' dst',
  mb_copyTo heap4 (firstn 2 ts9) (skipn 2 ts9 ++ [tr0 1]) = Val (h', dst') /\ tgood heap4 (firstn 2 ts9 ++ skipn 2 ts9 ++ [tr0 1]) [4%nat] /\ map tptrs dst' = [[5]; [6]]%nat /\ nth_error h' 2 = Some None.
Proof.
  eexists _, _. split; [vm_compute; reflexivity|]. split; [tg_solve|]. vm_compute. auto.
Qed.
