(** Runs of the PHD filter are runs of the filter with maps of any kind. *)
From Coq Require Import ZArith QArith Qcanon List Bool Arith Lia.
From Verif Require Import Base ListUtil QcLra ParticleModel RbRunModel PhdModel WeighModel BirthModel PhdRunModel PhdRunSpec.
Import ListNotations.
Local Open Scope nat_scope.

Section Ref.
Context {Pose M T : Type}.
Variable sn : hsensor Pose M T.
Variable cf : hconf.
Variable o : houtside T.
Notation part := (particle Pose (list (T * Qc))).

(** The map does not depend on the weight. *)
Lemma one_map : forall zs x mix w w0 m, phd_one sn cf o zs x mix w = Val m -> exists m0, phd_one sn cf o zs x mix w0 = Val m0 /\ nMap m0 = nMap m.
Proof.
  intros zs x mix w w0 m H. unfold phd_one in *. cbn zeta in *.
  destruct (updateMap _ _ _ _ _ _ _ _ _ _ _ _) as [r| |]; try discriminate. cbn [obind] in *.
  destruct (c_cluster (hSet cf)).
  - injection H as <-. eexists. split; reflexivity.
  - unfold importance in *. destruct (eval_count _ _ =? 0)%Z; cbn [obind fst snd] in *.
    + injection H as <-. eexists. split; reflexivity.
    + destruct (points _ _ _) as [ps| |]; try discriminate. cbn [obind] in *.
      destruct (RfsModel.rfs_likelihood _ _ _ _ _ _ _ _ _ _) as [lk| |]; try discriminate. cbn [obind] in *.
      destruct (Qc_eq_dec _ _); [discriminate|]. cbn [obind fst snd] in *. injection H as <-. eexists. split; reflexivity.
Qed.

Definition maps_of (zs : list M) (i : nat) (x : Pose) (d : list (T * Qc)) : list (T * Qc) :=
  match phd_one sn cf o zs x d None with Val m => nMap m | _ => [] end.
Definition wts_of (zs : list M) (i : nat) (x : Pose) (d : list (T * Qc)) (w : num) : num :=
  match phd_one sn cf o zs x d w with Val m => nW m | _ => None end.
Lemma upd_each : forall zs (l : list part) ss i l' ss', hupd_all sn cf o zs l ss = Val (l', ss') -> each (upd_part (maps_of zs) (wts_of zs)) i l = Val l'.
Proof.
  intros zs. induction l as [|p l IH]; intros ss i l' ss' H; cbn [hupd_all each] in *; [injection H as <- _; reflexivity|].
  destruct ss as [|s ss]; [discriminate|]. destruct (pdata p) as [d|]; [|discriminate]. cbn [of_option obind] in *.
  destruct (phd_one sn cf o zs (ppose p) d (pw p)) as [m| |] eqn:Em; try discriminate. cbn [obind] in H.
  destruct (hupd_all sn cf o zs l ss) as [[l1 s1]| |] eqn:E; try discriminate. cbn [obind fst snd] in H. injection H as <- _.
  rewrite (IH ss (S i) l1 s1 E). cbn [obind]. f_equal. f_equal. unfold upd_part. unfold wts_of. rewrite Em. f_equal. f_equal.
  unfold maps_of. destruct (one_map _ _ _ _ None _ Em) as (m0 & -> & ->). reflexivity.
Qed.

Definition birth_of (bs : list (list (option T))) (i : nat) (x : Pose) (d : list (T * Qc)) : list (T * Qc) :=
  d ++ match nth_error bs i with Some b => match newborns cf b with Val nb => nb | _ => [] end | None => [] end.
Lemma newborn_w : forall (b : list (option T)) nb, newborns cf b = Val nb -> forall lm w, In (lm, w) nb -> w = hBirthW cf.
Proof.
  induction b as [|x b IH]; intros nb H lm w Hi; cbn [newborns] in H; [injection H as <-; destruct Hi|].
  destruct x as [y|]; [|discriminate]. cbn [of_option obind] in H. destruct (newborns cf b) as [r| |]; try discriminate. cbn [obind] in H. injection H as <-.
  destruct Hi as [E|Hi]; [now injection E|apply (IH r eq_refl lm w Hi)].
Qed.
Lemma pred_each : forall move stat keep bs0 (l : list part) bs i l', (forall j, nth_error bs j = nth_error bs0 (i + j)) ->
  hpred_all cf move stat keep i l bs = Val l' -> each (step_part keep (birth_of bs0) move (map (fun g => (stat (fst g), snd g)))) i l = Val l'.
Proof.
  intros move stat keep bs0. induction l as [|p l IH]; intros bs i l' Hb H; cbn [hpred_all each] in *; [exact H|].
  destruct bs as [|b bs]; [discriminate|]. destruct (pdata p) as [d|]; [|discriminate]. cbn [of_option obind] in *.
  destruct (newborns cf b) as [nb| |] eqn:En; try discriminate. cbn [obind] in H.
  destruct (hpred_all cf move stat keep (S i) l bs) as [r| |] eqn:E; try discriminate. cbn [obind] in H. injection H as <-.
  rewrite (IH bs (S i) r); [|intros j; rewrite Nat.add_succ_comm; exact (Hb (S j))|exact E]. cbn [obind]. f_equal. f_equal. unfold step_part. f_equal. f_equal.
  unfold birth_of. specialize (Hb 0). cbn [nth_error] in Hb. rewrite Nat.add_0_r in Hb. rewrite <- Hb, En. reflexivity.
Qed.

Lemma do_refines : forall g0 c s k s', hdo sn cf o g0 c s k = Val s' -> exists r, same_hcall sn cf o k r /\ rdo c (hRb s) r = Val (hRb s').
Proof.
  intros g0 c s k s' H. destruct k as [check move stat|zs u|t]; cbn [hdo] in H.
  - unfold hpredict in H. destruct (if check then hbirths sn cf g0 s else _) as [bs| |]; try discriminate. cbn [obind] in H.
    set (bl := map (fun b => sadded (option T) b) bs) in *.
    destruct (hpred_all cf move stat (rkeep c) 0 (pset (rpf (hRb s))) bl) as [l| |] eqn:E; try discriminate. cbn [obind] in H. injection H as <-.
    exists (RPredict (birth_of bl) move (map (fun g => (stat (fst g), snd g)))). split.
    + split; [reflexivity|]. split; [reflexivity|]. intros i x d. eexists. split; [reflexivity|]. intros lm w Hi.
      destruct (nth_error bl i) as [b|]; [|destruct Hi]. destruct (newborns cf b) as [nb| |] eqn:En; [|destruct Hi|destruct Hi]. exact (newborn_w b nb En lm w Hi).
    + cbn [rdo hRb]. unfold rpredict. rewrite (pred_each move stat (rkeep c) bl _ bl 0 l (fun j => eq_refl) E). reflexivity.
  - exists (RUpdate (length zs) (maps_of zs) (wts_of zs) u). split.
    + split; [reflexivity|]. split; [reflexivity|]. intros i x d w m Em. split.
      * unfold maps_of. destruct (one_map _ _ _ _ None _ Em) as (m0 & -> & ->). reflexivity.
      * unfold wts_of. rewrite Em. reflexivity.
    + cbn [rdo]. unfold rupdate, hupdate in *. destruct zs as [|z zs]; [injection H as <-; reflexivity|]. cbn [length Nat.eqb].
      destruct (hupd_all sn cf o (z :: zs) (pset (rpf (hRb s))) (hSlots s)) as [[l ss]| |] eqn:E; try discriminate. cbn [obind fst snd] in H.
      rewrite (upd_each _ _ _ 0 _ _ E). cbn [obind]. cbn [length] in H.
      destruct (finish c u _) as [b| |] eqn:Ef; try discriminate. cbn [obind] in H. injection H as <-. cbn [hRb]. reflexivity.
  - exists (RThreshold t). split; [reflexivity|]. injection H as <-. reflexivity.
Qed.

Theorem run_refines : forall g0 c ks s s', hrun sn cf o g0 c s ks = Val s' -> exists rs, Forall2 (same_hcall sn cf o) ks rs /\ rrun c (hRb s) rs = Val (hRb s').
Proof.
  intros g0 c. induction ks as [|k ks IH]; intros s s' H; cbn [hrun] in H; [injection H as <-; exists []; split; [constructor|reflexivity]|].
  destruct (hdo sn cf o g0 c s k) as [s1| |] eqn:E; try discriminate. cbn [obind] in H.
  destruct (do_refines _ _ _ _ _ E) as (r & H1 & H2). destruct (IH s1 s' H) as (rs & H3 & H4). exists (r :: rs). split; [constructor; assumption|].
  cbn [rrun]. rewrite H2. cbn [obind]. exact H4.
Qed.
End Ref.
