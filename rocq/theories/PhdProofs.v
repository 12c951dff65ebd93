(** Proofs about RBPHDFilter::updateMap: exact result. *)
From Coq Require Import List Bool Arith QArith Qcanon Lia.
From Verif Require Import Base ListUtil QcLra Loop PermanentSpec PermanentProofs PhdModel PhdSpec.
Import ListNotations.
Local Open Scope nat_scope.

Section Exact.
Variable T : Type.
Variable probDet : T -> Qc * bool.
Variable correct : T -> nat -> Qc * Qc * T.
Variable clutter : nat -> Qc.
Variables gateMD birthW tiny : Qc.
Variable expf : Qc -> Qc.
Variable mix : list (T * Qc).
Variable d : T * Qc.
Variable nZ : nat.
Variable t0 : PhdModel.tables T.
Notation nM := (length mix).
Notation lm m := (fst (nth m mix d)).
Notation wt m := (snd (nth m mix d)).
Notation pd := (pdet T probDet).
Notation tables := (tables T).

Definition gb (m z : nat) : bool :=
  if Qc_eq_dec (pd (lm m)) 0 then false
  else if Qc_eq_dec (likelihood T correct (lm m) z) 0 then false
  else negb (Qcltb gateMD (snd (fst (correct (lm m) z)))).
Definition U (m z : nat) : Qc :=
  if gb m z then (pd (lm m) * wt m * likelihood T correct (lm m) z)%Qc else 0%Qc.
Definition G (m z : nat) : option T := if gb m z then Some (corrected T correct (lm m) z) else None.
Definition tot (z : nat) : Qc := (clutter z + qsum (map (fun m => U m z) (seq 0 nM)))%Qc.
Definition NW (m z : nat) : Qc := if Qc_eq_dec (tot z) 0 then U m z else (U m z / tot z)%Qc.

Definition upto (m z : nat) : list (nat * nat) := list_prod (seq 0 m) (seq 0 nZ) ++ map (pair m) (seq 0 z).
Lemma upto_S : forall m z, upto m (S z) = upto m z ++ [(m, z)].
Proof. intros m z. unfold upto. rewrite seq_S, map_app, app_assoc. reflexivity. Qed.
Lemma list_prod_snoc : forall (l k : list nat) x, list_prod (l ++ [x]) k = list_prod l k ++ map (pair x) k.
Proof.
  induction l as [|y l IH]; intros k x; cbn [app list_prod]; [rewrite app_nil_r; reflexivity|].
  rewrite IH, app_assoc. reflexivity.
Qed.
Lemma upto_row : forall m, upto (S m) 0 = upto m nZ.
Proof. intros m. unfold upto. rewrite seq_S, list_prod_snoc. cbn [seq map]. rewrite app_nil_r. reflexivity. Qed.
Lemma upto_0 : upto 0 0 = [].
Proof. reflexivity. Qed.
Lemma in_upto : forall m z i j, In (i, j) (upto m z) <-> (i < m /\ j < nZ) \/ (i = m /\ j < z).
Proof.
  intros m z i j. unfold upto. rewrite in_app_iff, in_prod_iff, in_map_iff, !in_seq. split.
  - intros [[? ?]|(x & E & Hx)]; [left; lia|]. injection E as <- <-. apply in_seq in Hx. right. lia.
  - intros [[? ?]|[-> ?]]; [left; lia|]. right. exists j. split; [reflexivity|]. apply in_seq. lia.
Qed.

(** ----- table size ----- *)
Lemma grow_ge : forall have need, need <= grow have need /\ have <= grow have need.
Proof.
  intros have need. unfold grow. destruct (Nat.leb_spec have need) as [H|H]; [|lia].
  assert (need <= need * 12 / 10); [|lia]. apply Nat.div_le_lower_bound; lia.
Qed.
Definition t1 := checkTable T t0 nM nZ.
Definition fits (t : tables) : Prop := trows T t = trows T t1 /\ tcols T t = tcols T t1.
Lemma check_big : nM <= trows T t1 /\ nZ <= tcols T t1 /\ trows T t0 <= trows T t1 /\ tcols T t0 <= tcols T t1.
Proof.
  unfold t1, checkTable. destruct (Nat.leb_spec (trows T t0) nM); destruct (Nat.leb_spec (tcols T t0) nZ); cbn [orb trows tcols];
    try lia; repeat split; try (apply grow_ge); lia.
Qed.

Lemma inb : forall t m z, fits t -> m < nM -> z < nZ -> (m <? trows T t) && (z <? tcols T t) = true.
Proof.
  intros t m z [H1 H2] Hm Hz. destruct check_big as (B1 & B2 & _). apply andb_true_iff. split; apply Nat.ltb_lt; lia.
Qed.

Lemma set2_eq : forall {A} (f : nat -> nat -> A) m z v, set2 f m z v m z = v.
Proof. intros. unfold set2. rewrite !Nat.eqb_refl. reflexivity. Qed.
Lemma set2_ne : forall {A} (f : nat -> nat -> A) m z v i j, (i, j) <> (m, z) -> set2 f m z v i j = f i j.
Proof.
  intros A f m z v i j H. unfold set2. destruct (Nat.eqb_spec i m); [|reflexivity].
  destruct (Nat.eqb_spec j z); [|reflexivity]. subst. congruence.
Qed.

(** ----- Kalman filter loop ----- *)
Definition Icell (m z : nat) (s : tables * nat) : Prop :=
  fits (fst s) /\ (forall i j, In (i, j) (upto m z) -> wT T (fst s) i j = U i j /\ mT T (fst s) i j = G i j) /\
  snd s = length (filter (fun p => gb (fst p) (snd p)) (upto m z)).

Lemma cell_step : forall m z s, m < nM -> z < nZ -> Icell m z s ->
  exists s', kf_cell T correct gateMD (lm m) (pd (lm m)) (pd (lm m) * wt m)%Qc m z s = Val s' /\ Icell m (S z) s'.
Proof.
  intros m z s Hm Hz (Hf & He & Hc).
  assert (Hb := inb (fst s) m z Hf Hm Hz).
  assert (K : forall (o : option T) (v : Qc) (b : bool), o = (if b then Some (corrected T correct (lm m) z) else None) -> o = G m z -> v = U m z -> b = gb m z ->
    forall c : nat, c = snd s + (if b then 1 else 0) ->
    exists s', (let* t1 := wrm T (fst s) m z o in let* t2 := wrw T t1 m z v in Val (t2, c)) = Val s' /\ Icell m (S z) s').
  { intros o v b Ho HG HU Hbb c Ec. unfold wrm. rewrite Hb. cbn [obind]. unfold wrw. cbn [trows tcols]. rewrite Hb. cbn [obind].
    eexists. split; [reflexivity|]. split; [exact Hf|]. split.
    - intros i j Hij. cbn [fst wT mT]. rewrite upto_S in Hij. apply in_app_or in Hij. destruct Hij as [Hij|[Hij|[]]].
      + assert (Hne : (i, j) <> (m, z)) by (intros E; injection E as -> ->; apply in_upto in Hij; lia).
        rewrite !set2_ne by exact Hne. auto.
      + injection Hij as <- <-. rewrite !set2_eq. auto.
    - cbn [snd]. rewrite upto_S, filter_app, app_length, <- Hc. cbn [filter fst snd]. rewrite Ec, Hbb. destruct (gb m z); reflexivity. }
  unfold kf_cell. unfold likelihood, corrected in *.
  assert (Eg : gb m z = if Qc_eq_dec (pd (lm m)) 0 then false else if Qc_eq_dec (fst (fst (correct (lm m) z))) 0 then false
    else negb (Qcltb gateMD (snd (fst (correct (lm m) z))))) by reflexivity.
  assert (EU : U m z = if gb m z then (pd (lm m) * wt m * fst (fst (correct (lm m) z)))%Qc else 0%Qc) by reflexivity.
  assert (EG : G m z = if gb m z then Some (snd (correct (lm m) z)) else None) by reflexivity.
  destruct (correct (lm m) z) as [[lik md2] lmN]. cbn [fst snd] in *.
  destruct (Qc_eq_dec (pd (lm m)) 0); [apply (K None 0%Qc false); rewrite ?EU, ?EG, ?Eg; auto|].
  destruct (Qc_eq_dec lik 0); [apply (K None 0%Qc false); rewrite ?EU, ?EG, ?Eg; auto|].
  destruct (Qcltb gateMD md2); [apply (K None 0%Qc false); rewrite ?EU, ?EG, ?Eg; auto|].
  apply (K (Some lmN) (pd (lm m) * wt m * lik)%Qc true); rewrite ?EU, ?EG, ?Eg; auto. lia.
Qed.

Definition Irow (m : nat) (s : kf T) : Prop :=
  Icell m 0 (ktb T s, knew T s) /\ kpd T s = map (fun i => pd (lm i)) (seq 0 m) /\
  kclose T s = map (fun i => snd (probDet (lm i))) (seq 0 m) /\
  kfov T s = length (filter (fun i => if Qc_eq_dec (pd (lm i)) 0 then false else true) (seq 0 m)).

Lemma row_step : forall m s, m < nM -> Irow m s ->
  exists s', kf_row T probDet correct gateMD mix nZ m s = Val s' /\ Irow (S m) s'.
Proof.
  intros m s Hm (H1 & H2 & H3 & H4). unfold kf_row.
  rewrite (nth_error_nth' mix d Hm).
  rewrite (surjective_pairing (nth m mix d)). rewrite (surjective_pairing (probDet (lm m))). cbv zeta.
  fold (pd (lm m)).
  destruct (for_inv (Icell m) (kf_cell T correct gateMD (lm m) (pd (lm m)) (pd (lm m) * wt m)%Qc m) nZ _ H1) as ([t c] & Et & It).
  { intros z t Hz It. apply cell_step; auto. }
  rewrite Et. cbn [obind fst snd].
  eexists. split; [reflexivity|]. split; [|split; [|split]]; cbn [ktb knew kpd kclose kfov].
  - destruct It as (A1 & A2 & A3). split; [exact A1|]. rewrite upto_row. auto.
  - rewrite seq_S, map_app, H2. reflexivity.
  - rewrite seq_S, map_app, H3. reflexivity.
  - rewrite seq_S, filter_app, app_length, <- H4. cbn [filter Nat.add]. destruct (Qc_eq_dec (pd (lm m)) 0); cbn [length]; lia.
Qed.

(** ----- normalisation ----- *)
Lemma qsum_snoc : forall (f : nat -> Qc) k, qsum (map f (seq 0 (S k))) = (qsum (map f (seq 0 k)) + f k)%Qc.
Proof.
  intros f k. rewrite seq_S, map_app, qsum_app. cbn [map Nat.add qsum fold_right]. ring.
Qed.

Lemma sum_loop : forall (t : tables) z (f : nat -> Qc) v0, fits t -> z < nZ -> (forall m, m < nM -> wT T t m z = f m) ->
  for_ nM (fun m v => let* w := rdw T t m z in Val (v + w)%Qc) v0 = Val (v0 + qsum (map f (seq 0 nM)))%Qc.
Proof.
  intros t z f v0 Hf Hz H.
  destruct (for_inv (fun k v => v = (v0 + qsum (map f (seq 0 k)))%Qc)
    (fun m v => let* w := rdw T t m z in Val (v + w)%Qc) nM v0) as (v & E & ->); [cbn; ring| |exact E].
  intros k v Hk ->. unfold rdw. rewrite inb by assumption. cbn [obind]. eexists. split; [reflexivity|].
  rewrite qsum_snoc, H by exact Hk. ring.
Qed.

Definition Inorm (z : nat) (s : tables * Qc) : Prop :=
  fits (fst s) /\ (forall i j, i < nM -> j < nZ -> wT T (fst s) i j = (if j <? z then NW i j else U i j) /\ mT T (fst s) i j = G i j) /\
  snd s = fold_left Qcmult (map tot (seq 0 z)) 1%Qc.

Lemma norm_step : forall z s, z < nZ -> Inorm z s ->
  exists s', normalise T clutter nM z s = Val s' /\ Inorm (S z) s'.
Proof.
  intros z s Hz (Hf & He & Hp). unfold normalise.
  rewrite (sum_loop (fst s) z (fun m => U m z)); [|exact Hf|exact Hz|].
  2:{ intros m Hm. destruct (He m z Hm Hz) as [E _]. rewrite E, Nat.ltb_irrefl. reflexivity. }
  cbn [obind]. fold (tot z).
  assert (Eprod : (snd s * tot z)%Qc = fold_left Qcmult (map tot (seq 0 (S z))) 1%Qc).
  { rewrite seq_S, map_app, fold_left_app, <- Hp. reflexivity. }
  destruct (Qc_eq_dec (tot z) 0) as [E0|E0].
  - eexists. split; [reflexivity|]. split; [exact Hf|]. split; [|exact Eprod].
    intros i j Hi Hj. cbn [fst]. destruct (He i j Hi Hj) as [E1 E2]. split; [|exact E2]. rewrite E1.
    destruct (Nat.ltb_spec j z); destruct (Nat.ltb_spec j (S z)); try lia; try reflexivity.
    assert (j = z) by lia. subst j. unfold NW. destruct (Qc_eq_dec (tot z) 0); [reflexivity|contradiction].
  - destruct (for_inv (fun m t => fits t /\ forall i j, i < nM -> j < nZ ->
        wT T t i j = (if (j <? z) || ((j =? z) && (i <? m)) then NW i j else U i j) /\ mT T t i j = G i j)
      (fun m t => let* w := rdw T t m z in wrw T t m z (w / tot z)%Qc) nM (fst s)) as (t & Et & Ht1 & Ht2).
    + split; [exact Hf|]. intros i j Hi Hj. rewrite andb_false_r, orb_false_r. auto.
    + intros m t Hm (F & Q). unfold rdw. rewrite inb by assumption. cbn [obind]. unfold wrw. rewrite inb by assumption.
      eexists. split; [reflexivity|]. split; [exact F|]. intros i j Hi Hj. cbn [wT mT].
      destruct (Q i j Hi Hj) as [Q1 Q2]. split; [|exact Q2].
      destruct (Nat.eq_dec i m) as [->|Hne]; [destruct (Nat.eq_dec j z) as [->|Hne]|].
      * rewrite set2_eq. destruct (Q m z Hm Hz) as [E1 _]. rewrite E1, Nat.ltb_irrefl, Nat.eqb_refl, Nat.ltb_irrefl. cbn [orb andb].
        destruct (Nat.ltb_spec m (S m)); [|lia]. unfold NW. destruct (Qc_eq_dec (tot z) 0); [contradiction|reflexivity].
      * rewrite set2_ne by congruence. rewrite Q1. destruct (Nat.eqb_spec j z); [contradiction|]. reflexivity.
      * rewrite set2_ne by congruence. rewrite Q1.
        replace (i <? S m) with (i <? m); [reflexivity|].
        destruct (Nat.ltb_spec i m); destruct (Nat.ltb_spec i (S m)); lia || reflexivity.
    + rewrite Et. cbn [obind]. eexists. split; [reflexivity|]. split; [exact Ht1|]. split; [|exact Eprod].
      intros i j Hi Hj. cbn [fst]. destruct (Ht2 i j Hi Hj) as [E1 E2]. split; [|exact E2]. rewrite E1.
      apply Nat.ltb_lt in Hi. rewrite Hi, andb_true_r.
      replace ((j <? z) || (j =? z)) with (j <? S z); [reflexivity|].
      destruct (Nat.ltb_spec j z); destruct (Nat.ltb_spec j (S z)); destruct (Nat.eqb_spec j z); cbn; lia || reflexivity.
Qed.

(** ----- new Gaussians ----- *)
Definition ob (p : nat * nat) : bool := gb (fst p) (snd p) && Qcltb 0 (NW (fst p) (snd p)).
Definition mk (p : nat * nat) : T * Qc := (corrected T correct (lm (fst p)) (snd p), NW (fst p) (snd p)).

Definition Iadd (m z : nat) (s : tables * list (T * Qc)) : Prop :=
  fits (fst s) /\ (forall i j, i < nM -> j < nZ -> wT T (fst s) i j = NW i j) /\
  (forall i j, i < nM -> j < nZ -> ~ In (i, j) (upto m z) -> mT T (fst s) i j = G i j) /\
  (forall i j, In (i, j) (upto m z) -> mT T (fst s) i j = if ob (i, j) then None else G i j) /\
  snd s = mix ++ map mk (filter ob (upto m z)).

Lemma add_step : forall m z s, m < nM -> z < nZ -> Iadd m z s ->
  exists s', add_cell T m z s = Val s' /\ Iadd m (S z) s'.
Proof.
  intros m z s Hm Hz (Hf & Hw & Hm1 & Hm3 & Hl). unfold add_cell.
  assert (Hni : ~ In (m, z) (upto m z)) by (rewrite in_upto; lia).
  unfold rdm. rewrite inb by assumption. cbn [obind]. rewrite (Hm1 m z Hm Hz Hni).
  assert (Sub : forall i j, ~ In (i, j) (upto m (S z)) -> ~ In (i, j) (upto m z) /\ (i, j) <> (m, z)).
  { intros i j H. rewrite upto_S, in_app_iff in H. split; [tauto|]. intros E. apply H. right. left. congruence. }
  assert (Skip : ob (m, z) = false -> Iadd m (S z) s).
  { intros E. split; [exact Hf|]. split; [exact Hw|]. split; [|split].
    - intros i j Hi Hj H. apply Sub in H. apply Hm1; tauto.
    - intros i j H. rewrite upto_S in H. apply in_app_or in H. destruct H as [H|[H|[]]]; [auto|].
      injection H as <- <-. rewrite E. apply Hm1; auto.
    - rewrite upto_S, filter_app. cbn [filter]. rewrite E, app_nil_r. exact Hl. }
  unfold G. destruct (gb m z) eqn:Eg.
  - unfold rdw. rewrite inb by assumption. cbn [obind]. rewrite (Hw m z Hm Hz).
    destruct (Qcltb 0 (NW m z)) eqn:Ew.
    + unfold wrm. rewrite inb by assumption. cbn [obind].
      assert (Eob : ob (m, z) = true) by (unfold ob; cbn [fst snd]; rewrite Eg, Ew; reflexivity).
      eexists. split; [reflexivity|]. split; [exact Hf|]. split; [exact Hw|]. split; [|split].
      * intros i j Hi Hj H. apply Sub in H. cbn [fst mT]. rewrite set2_ne by tauto. apply Hm1; tauto.
      * intros i j H. rewrite upto_S in H. apply in_app_or in H. cbn [fst mT]. destruct H as [H|[H|[]]].
        -- rewrite set2_ne; [auto|]. intros E. rewrite E in H. contradiction.
        -- injection H as <- <-. rewrite set2_eq, Eob. reflexivity.
      * cbn [snd]. rewrite upto_S, filter_app, map_app. cbn [filter]. rewrite Eob, Hl, <- app_assoc. reflexivity.
    + eexists. split; [reflexivity|]. apply Skip. unfold ob. cbn [fst snd]. rewrite Eg, Ew. reflexivity.
  - eexists. split; [reflexivity|]. apply Skip. unfold ob. cbn [fst snd]. rewrite Eg. reflexivity.
Qed.

(** ----- existing Gaussians ----- *)
Definition W (m : nat) : Qc :=
  let wk := ((1 - pd (lm m)) * wt m)%Qc in
  if snd (probDet (lm m)) && Qcltb birthW (wt m) then
    let delta := (pd (lm m) * wt m - qsum (map (NW m) (seq 0 nZ)))%Qc in
    if Qcltb 0 delta then (if Qcltb 1 (wk + delta)%Qc then 1%Qc else (wk + delta)%Qc) else wk
  else wk.

Definition Imiss (l0 : list (T * Qc)) (m : nat) (l : list (T * Qc)) : Prop :=
  length l = length l0 /\
  forall i, nth_error l i = if i <? m then Some (lm i, W i) else nth_error l0 i.

Lemma miss_sum : forall (t : tables) m v0, fits t -> m < nM -> (forall i j, i < nM -> j < nZ -> wT T t i j = NW i j) ->
  for_ nZ (fun z v => let* x := rdw T t m z in Val (v + x)%Qc) v0 = Val (v0 + qsum (map (NW m) (seq 0 nZ)))%Qc.
Proof.
  intros t m v0 Hf Hm H.
  destruct (for_inv (fun k v => v = (v0 + qsum (map (NW m) (seq 0 k)))%Qc)
    (fun z v => let* w := rdw T t m z in Val (v + w)%Qc) nZ v0) as (v & E & ->); [cbn; ring| |exact E].
  intros k v Hk ->. unfold rdw. rewrite inb by assumption. cbn [obind]. eexists. split; [reflexivity|].
  rewrite qsum_snoc, H by assumption. ring.
Qed.

Lemma miss_step : forall t l0 m l, fits t -> (forall i j, i < nM -> j < nZ -> wT T t i j = NW i j) ->
  (exists r, l0 = mix ++ r) -> m < nM -> Imiss l0 m l ->
  exists l', missed T birthW t (map (fun i => pd (lm i)) (seq 0 nM)) (map (fun i => snd (probDet (lm i))) (seq 0 nM)) nZ m l = Val l' /\
  Imiss l0 (S m) l'.
Proof.
  intros t l0 m l Hf Hw (r & El0) Hm (Hlen & Hl). unfold missed.
  assert (Hml : m < length l) by (rewrite Hlen, El0, app_length; lia).
  assert (E1 : nth_error l m = Some (lm m, wt m)).
  { rewrite Hl, Nat.ltb_irrefl, El0, nth_error_app1 by exact Hm. rewrite (nth_error_nth' mix d Hm).
    destruct (nth m mix d). reflexivity. }
  assert (ES : nth_error (seq 0 nM) m = Some m).
  { rewrite (nth_error_nth' _ 0) by (rewrite seq_length; lia). rewrite seq_nth by lia. reflexivity. }
  rewrite E1, !nth_error_map, ES. cbn [option_map].
  assert (Fin : forall v, v = W m -> exists l', Val (upd l m (lm m, v)) = Val l' /\ Imiss l0 (S m) l').
  { intros v ->. eexists. split; [reflexivity|]. split; [rewrite upd_length; exact Hlen|].
    intros i. destruct (Nat.eq_dec i m) as [->|Hne].
    - rewrite nth_error_upd_eq by exact Hml. destruct (Nat.ltb_spec m (S m)); [reflexivity|lia].
    - rewrite nth_error_upd_neq by congruence. rewrite Hl.
      replace (i <? S m) with (i <? m); [reflexivity|]. destruct (Nat.ltb_spec i m); destruct (Nat.ltb_spec i (S m)); lia || reflexivity. }
  cbv zeta. unfold W in Fin. cbv zeta in Fin.
  destruct (snd (probDet (lm m)) && Qcltb birthW (wt m)).
  - rewrite miss_sum by assumption. cbn [obind]. rewrite Qcplus_0_l.
    destruct (Qcltb 0 (pd (lm m) * wt m - qsum (map (NW m) (seq 0 nZ)))%Qc); cbn [obind]; apply Fin; reflexivity.
  - cbn [obind]. apply Fin. reflexivity.
Qed.

(** ----- unused ----- *)
Lemma used_ok : forall (t : tables) z, fits t -> z < nZ -> (forall i j, i < nM -> j < nZ -> wT T t i j = NW i j) ->
  forall n m, m + n = nM -> used T t z m n = Val (existsb (fun i => if Qc_eq_dec (NW i z) 0 then false else true) (seq m n)).
Proof.
  intros t z Hf Hz Hw. induction n as [|n IH]; intros m E; cbn [used seq existsb]; [reflexivity|].
  unfold rdw. rewrite inb by (assumption || lia). cbn [obind]. rewrite Hw by (assumption || lia).
  destruct (Qc_eq_dec (NW m z) 0); cbn [orb]; [|reflexivity]. apply IH. lia.
Qed.

Definition uz (z : nat) : bool := negb (existsb (fun i => if Qc_eq_dec (NW i z) 0 then false else true) (seq 0 nM)).

Lemma unused_ok : forall (t : tables), fits t -> (forall i j, i < nM -> j < nZ -> wT T t i j = NW i j) ->
  unused_list T t nM nZ = Val (filter uz (seq 0 nZ)).
Proof.
  intros t Hf Hw. unfold unused_list.
  destruct (for_inv (fun k l => l = filter uz (seq 0 k))
    (fun z l => let* b := used T t z 0 nM in Val (if b then l else l ++ [z])) nZ []) as (l & E & ->); [reflexivity| |exact E].
  intros k l Hk ->. rewrite used_ok by auto. cbn [obind]. eexists. split; [reflexivity|].
  rewrite seq_S, filter_app. cbn [filter Nat.add]. unfold uz at 4.
  destruct (existsb (fun i => if Qc_eq_dec (NW i k) 0 then false else true) (seq 0 nM)) eqn:Ee; cbn [negb];
    [rewrite app_nil_r|]; reflexivity.
Qed.

Theorem update_exact : nM <> 0 -> forall cluster, exists t mx,
  updateMap T probDet correct clutter gateMD birthW tiny expf cluster t0 mix nZ =
    Val (RES T t mx (filter uz (seq 0 nZ))
      (length (filter (fun i => if Qc_eq_dec (pd (lm i)) 0 then false else true) (seq 0 nM)))
      (if cluster then (expf (fold_left (fun v g => (v + snd g)%Qc) mix tiny) * fold_left Qcmult (map tot (seq 0 nZ)) 1)%Qc else 1%Qc)
      (length (filter (fun p => gb (fst p) (snd p)) (upto nM 0))) (length (filter ob (upto nM 0)))) /\
  length mx = nM + length (filter ob (upto nM 0)) /\
  (forall i, i < nM -> nth_error mx i = Some (lm i, W i)) /\
  skipn nM mx = map mk (filter ob (upto nM 0)) /\
  nM <= trows T t /\ nZ <= tcols T t /\ trows T t0 <= trows T t /\ tcols T t0 <= tcols T t /\
  (forall i j, i < nM -> j < nZ -> mT T t i j = if ob (i, j) then None else G i j).
Proof.
  intros HnM cluster. unfold updateMap. destruct (Nat.eqb_spec nM 0) as [|_]; [contradiction|].
  cbv zeta. fold t1.
  destruct (for_inv Irow (kf_row T probDet correct gateMD mix nZ) nM (KF T t1 [] [] 0 0)) as (k & Ek & (K1 & K2 & K3 & K4)).
  { split; [|auto]. split; [split; reflexivity|]. split; [intros i j []|reflexivity]. }
  { intros m s Hm Is. apply row_step; auto. }
  rewrite Ek. cbn [obind]. destruct K1 as (F1 & W1 & C1).
  destruct (for_inv Inorm (normalise T clutter nM) nZ (ktb T k, 1%Qc)) as ([t2 pr] & En & (F2 & W2 & P2)).
  { split; [exact F1|]. split; [|reflexivity]. intros i j Hi Hj. cbn [fst]. apply W1. apply in_upto. left. lia. }
  { intros z s Hz Is. apply norm_step; auto. }
  rewrite En. cbn [obind]. cbn [fst snd] in *.
  destruct (for_inv (fun m s => Iadd m 0 s) (fun m s => for_ nZ (add_cell T m) s) nM (t2, mix)) as ([t3 l3] & Ea & (F3 & W3 & M3 & M4 & L3)).
  { split; [exact F2|]. split; [|split; [|split]].
    - intros i j Hi Hj. cbn [fst]. destruct (W2 i j Hi Hj) as [E _]. rewrite E. apply Nat.ltb_lt in Hj. rewrite Hj. reflexivity.
    - intros i j Hi Hj _. apply (W2 i j Hi Hj).
    - intros i j [].
    - cbn. rewrite app_nil_r. reflexivity. }
  { intros m s Hm Is. destruct (for_inv (Iadd m) (add_cell T m) nZ s Is) as (s' & Es & Is').
    - intros z u Hz Iu. apply add_step; auto.
    - exists s'. split; [exact Es|]. destruct Is' as (A1 & A2 & A3 & A4 & A5).
      rewrite <- upto_row in A5. split; [exact A1|]. split; [exact A2|].
      split; [|split; [|exact A5]]; [intros i j Hi Hj H; apply A3; auto|intros i j H; apply A4]; rewrite upto_row in H; exact H. }
  unfold add_all. rewrite Ea. cbn [obind fst snd] in *. rewrite K2, K3.
  destruct (for_inv (Imiss l3) (missed T birthW t3 (map (fun i => pd (lm i)) (seq 0 nM)) (map (fun i => snd (probDet (lm i))) (seq 0 nM)) nZ) nM l3)
    as (mx & Em & (Lm & Hm)).
  { split; [reflexivity|]. intros i. reflexivity. }
  { intros m l Hlt Il. apply miss_step; eauto. }
  rewrite Em. cbn [obind]. rewrite unused_ok by auto. cbn [obind].
  assert (Lx : length l3 = nM + length (filter ob (upto nM 0))) by (rewrite L3, app_length, map_length; reflexivity).
  exists t3, mx. destruct F3 as [F3 F3']. destruct check_big as (B1 & B2 & B3 & B4).
  split; [|split; [|split; [|split; [|split; [|split; [|split; [|split]]]]]]]; try lia.
  - rewrite K4, P2. replace (length l3 - nM) with (length (filter ob (upto nM 0))) by lia.
    cbn [snd] in C1. rewrite C1. reflexivity.
  - intros i Hi. rewrite Hm. apply Nat.ltb_lt in Hi. rewrite Hi. reflexivity.
  - apply list_ext. intros i. rewrite nth_error_skipn, Hm.
    destruct (Nat.ltb_spec (nM + i) nM); [lia|]. rewrite L3, nth_error_app2 by lia. f_equal. lia.
  - intros i j Hi Hj. apply M4. apply in_upto. left. lia.
Qed.
End Exact.
