(** Proofs for C172-C174. *)
From Coq Require Import QArith ZArith List Bool Arith Lia.
From Verif Require Import Base ListUtil AccessModel AccessSpec VpProofs4.
Import ListNotations.
Close Scope Q_scope.

Section Logs.
Context {A : Type}.
Notation line := (@line A).

Lemma pose_rows_ok : forall (t : A) rows i f out,
  pose_rows t i (length rows) (map old_row rows ++ f) out = (out ++ map (new_row t) (number i rows), Some f).
Proof.
  intros t. induction rows as [|[[[a b] c] d] rows IH]; intros i f out; cbn.
  - now rewrite app_nil_r.
  - rewrite IH, <- app_assoc. reflexivity.
Qed.
Lemma pose_rows_inv : forall (t : A) n i f out out' f', pose_rows t i n f out = (out', Some f') ->
  exists rows, length rows = n /\ f = map old_row rows ++ f' /\ out' = out ++ map (new_row t) (number i rows).
Proof.
  intros t. induction n as [|n IH]; intros i f out out' f' E; cbn in E.
  - injection E as <- <-. exists []. cbn. rewrite app_nil_r. auto.
  - destruct f as [|[ | | | | |xs| | ] f]; try discriminate E.
    destruct xs as [|x [|y [|r [|w [|z xs]]]]]; try discriminate E.
    apply IH in E as (rows & H1 & H2 & H3). exists ((x, y, r, w) :: rows). cbn. subst. rewrite <- app_assoc. auto.
Qed.

Lemma pose_steps_ok : forall steps f out, (forall s, In s steps -> pstep_ok s) ->
  pose_steps (length steps) (flat_map (@old_step A) steps ++ f) out = (out ++ flat_map new_step steps, 0%Z).
Proof.
  induction steps as [|s steps IH]; intros f out H; cbn.
  - now rewrite app_nil_r.
  - rewrite (H s (or_introl eq_refl)). rewrite <- app_assoc, pose_rows_ok, IH by (intros; apply H; now right).
    now rewrite <- app_assoc.
Qed.
Lemma pose_steps_inv : forall n f out out', pose_steps n f out = (out', 0%Z) ->
  exists steps rest, length steps = n /\ (forall s, In s steps -> pstep_ok s) /\
    f = flat_map (@old_step A) steps ++ rest /\ out' = out ++ flat_map new_step steps.
Proof.
  induction n as [|n IH]; intros f out out' E; cbn in E.
  - injection E as <-. exists [], f. cbn. rewrite app_nil_r. repeat split; auto. intros s [].
  - destruct f as [|[ |t| | | | | | ] f]; try discriminate E.
    destruct f as [|[ | |np| | | | | ] f]; try discriminate E.
    destruct (pose_rows t 0 (Z.to_nat np) f out) as [o [f3|]] eqn:R; [|discriminate E].
    apply pose_rows_inv in R as (rows & H1 & -> & ->).
    apply IH in E as (steps & rest & K1 & K2 & -> & ->).
    exists (PStep t np rows :: steps), rest. split; [cbn; congruence|]. split; [|split].
    + intros s [<-|Hs]; [|auto]. unfold pstep_ok. cbn. now rewrite H1.
    + cbn. now rewrite <- app_assoc.
    + cbn. now rewrite <- app_assoc.
Qed.

(** C172, poses. *)
Lemma convert_pose_iff : forall (f out : list line),
  convert_pose f = (out, 0%Z) <->
  exists n steps rest, f = LSteps n :: flat_map old_step steps ++ rest /\ Z.to_nat n = length steps /\
    (forall s, In s steps -> pstep_ok s) /\ out = flat_map new_step steps.
Proof.
  intros f out. split.
  - intro E. unfold convert_pose in E. destruct f as [|[n| | | | | | | ] f]; try discriminate E.
    apply pose_steps_inv in E as (steps & rest & H1 & H2 & -> & ->). exists n, steps, rest. auto.
  - intros (n & steps & rest & -> & Hn & Hs & ->). cbn. rewrite Hn, pose_steps_ok by auto. reflexivity.
Qed.

Lemma lmk_rows_ok : forall (t : A) pid rows f out,
  lmk_rows t pid (length rows) (map old_lrow rows ++ f) out = (out ++ map (new_lrow t pid) rows, Some f).
Proof.
  intros t pid. induction rows as [|[[[x y] [[[a b] c] d]] w] rows IH]; intros f out; cbn.
  - now rewrite app_nil_r.
  - rewrite IH, <- app_assoc. reflexivity.
Qed.
Lemma lmk_rows_inv : forall (t : A) pid n f out out' f', lmk_rows t pid n f out = (out', Some f') ->
  exists rows, length rows = n /\ f = map old_lrow rows ++ f' /\ out' = out ++ map (new_lrow t pid) rows.
Proof.
  intros t pid. induction n as [|n IH]; intros f out out' f' E; cbn in E.
  - injection E as <- <-. exists []. cbn. rewrite app_nil_r. auto.
  - destruct f as [|[ | | | | |xs| | ] f]; try discriminate E.
    destruct xs as [|x [|y [|a [|b [|c [|d [|w [|z xs]]]]]]]]; try discriminate E.
    apply IH in E as (rows & H1 & H2 & H3). exists ((x, y, (a, b, c, d), w) :: rows). cbn. subst. rewrite <- app_assoc. auto.
Qed.
Lemma lmk_rows_shorter : forall (t : A) pid n f out out' f', lmk_rows t pid n f out = (out', Some f') -> (length f' <= length f)%nat.
Proof. intros t pid n f out out' f' E. apply lmk_rows_inv in E as (rows & _ & -> & _). rewrite app_length. lia. Qed.

Lemma lmk_maps_total : forall fuel (f out : list line), (length f <= fuel)%nat -> exists r, lmk_maps fuel f out = Val r.
Proof.
  induction fuel as [|fuel IH]; intros f out H.
  - destruct f; [|cbn in H; lia]. cbn. eauto.
  - destruct f as [|[ | | | |t pid n| | | ] f]; cbn; eauto.
    destruct (lmk_rows t pid (Z.to_nat n) f out) as [o [f2|]] eqn:R; eauto.
    apply IH. apply lmk_rows_shorter in R. cbn in H. lia.
Qed.
Lemma lmk_maps_ok : forall blocks fuel rest out, (forall b, In b blocks -> mblock_ok b) -> ~ starts_map rest ->
  (length (flat_map (@old_block A) blocks ++ rest) <= fuel)%nat ->
  lmk_maps fuel (flat_map (@old_block A) blocks ++ rest) out = Val (out ++ flat_map new_block blocks, 0%Z).
Proof.
  induction blocks as [|b blocks IH]; intros fuel rest out H Hr Hf.
  - cbn [flat_map app] in *. rewrite app_nil_r. destruct rest as [|x rest]; [now destruct fuel|].
    destruct x; try (destruct fuel; reflexivity). exfalso. apply Hr. exact I.
  - cbn [flat_map] in *. rewrite <- app_assoc in *. unfold old_block at 1. unfold old_block at 1 in Hf. cbn [app length] in *. destruct fuel as [|fuel]; [lia|].
    cbn [lmk_maps]. rewrite (H b (or_introl eq_refl)), lmk_rows_ok. rewrite IH; auto.
    + now rewrite <- app_assoc.
    + intros; apply H; now right.
    + rewrite app_length in Hf. lia.
Qed.
Lemma lmk_maps_inv : forall fuel (f out out' : list line), lmk_maps fuel f out = Val (out', 0%Z) ->
  exists blocks rest, (forall b, In b blocks -> mblock_ok b) /\ ~ starts_map rest /\
    f = flat_map (@old_block A) blocks ++ rest /\ out' = out ++ flat_map new_block blocks.
Proof.
  assert (base : forall f out out' : list line, ~ starts_map f -> Val (out, 0%Z) = Val (out', 0%Z) ->
    exists blocks rest, (forall b, In b blocks -> mblock_ok b) /\ ~ starts_map rest /\
      f = flat_map (@old_block A) blocks ++ rest /\ out' = out ++ flat_map new_block blocks).
  { intros f out out' Hs E. exists [], f. cbn. rewrite app_nil_r. apply val_inj in E. repeat split; auto; [intros b []|congruence]. }
  induction fuel as [|fuel IH]; intros f out out' E.
  - destruct f as [|[ | | | |t pid n| | | ] f]; cbn in E; try discriminate E; apply base; auto.
  - destruct f as [|[ | | | |t pid n| | | ] f]; cbn [lmk_maps] in E; try (apply base; auto; fail).
    destruct (lmk_rows t pid (Z.to_nat n) f out) as [o [f2|]] eqn:R; [|apply val_inj in E; discriminate E].
    apply lmk_rows_inv in R as (rows & H1 & -> & ->).
    apply IH in E as (blocks & rest & K1 & K2 & -> & ->).
    exists (MBlock t pid n rows :: blocks), rest. split; [|split; [exact K2|split]].
    + intros b [<-|Hb]; [|auto]. unfold mblock_ok. cbn. now rewrite H1.
    + cbn. now rewrite <- app_assoc.
    + cbn. now rewrite <- app_assoc.
Qed.

(** C172, landmarks. *)
Lemma convert_lmk_iff : forall (f out : list line),
  (exists r, convert_lmk f = Val r) /\
  (convert_lmk f = Val (out, 0%Z) <->
   exists n np blocks rest, f = LSteps n :: LNPart2 np :: flat_map old_block blocks ++ rest /\
     (forall b, In b blocks -> mblock_ok b) /\ ~ starts_map rest /\ out = flat_map new_block blocks).
Proof.
  intros f out. split; [|split].
  - unfold convert_lmk. destruct f as [|[n| | | | | | | ] [|[ | | |np| | | | ] f]]; eauto. now apply lmk_maps_total.
  - intro E. unfold convert_lmk in E.
    destruct f as [|[n| | | | | | | ] [|[ | | |np| | | | ] f]]; try (apply val_inj in E; discriminate E).
    apply lmk_maps_inv in E as (blocks & rest & H1 & H2 & -> & ->). exists n, np, blocks, rest. auto.
  - intros (n & np & blocks & rest & -> & H1 & H2 & ->). cbn [convert_lmk]. rewrite lmk_maps_ok by auto. reflexivity.
Qed.

(** C173. *)
Lemma convert_pose_new : forall f out : list line, convert_pose f = (out, 0%Z) -> snd (convert_pose out) = 1%Z /\ fst (convert_pose out) = [].
Proof.
  intros f out E. apply convert_pose_iff in E as (n & steps & rest & _ & _ & _ & ->).
  assert (forall x : line, In x (flat_map new_step steps) -> exists t i xs, x = LNewPose t i xs) as K.
  { intros x Hx. apply in_flat_map in Hx as (s & _ & Hx). unfold new_step in Hx. apply in_map_iff in Hx as ([i [[[a b] c] d]] & <- & _).
    cbn. eauto. }
  destruct (flat_map new_step steps) as [|x l]; [split; reflexivity|].
  destruct (K x (or_introl eq_refl)) as (t & i & xs & ->). split; reflexivity.
Qed.

Lemma convert_once : forall (d d1 : @dir A) s, convert d = Val (d1, s) ->
  d_lmk_bak d1 = d_lmk d /\ d_pose_bak d1 = d_pose d.
Proof.
  intros d d1 s E. unfold convert in E. destruct (d_lmk d) as [l|]; [|discriminate E]. destruct (d_pose d) as [p|]; [|discriminate E].
  cbn [of_option obind] in E. destruct (snd (convert_pose p) =? 0)%Z.
  - destruct (proj1 (convert_lmk_iff l [])) as [q Hq]. rewrite Hq in E. cbn [obind] in E. apply val_inj in E. injection E as <- _. auto.
  - apply val_inj in E. injection E as <- _. auto.
Qed.
Lemma convert_total : forall d : @dir A, d_lmk d <> None -> d_pose d <> None -> exists r, convert d = Val r.
Proof.
  intros d H1 H2. unfold convert. destruct (d_lmk d) as [l|]; [|congruence]. destruct (d_pose d) as [p|]; [|congruence].
  cbn [of_option obind]. destruct (snd (convert_pose p) =? 0)%Z; [|eauto].
  destruct (proj1 (convert_lmk_iff l [])) as [q Hq]. rewrite Hq. cbn [obind]. eauto.
Qed.

Lemma convert_zero : forall d d1 : @dir A, convert d = Val (d1, 0%Z) ->
  exists l p l' p', d_lmk d = Some l /\ d_pose d = Some p /\ convert_lmk l = Val (l', 0%Z) /\ convert_pose p = (p', 0%Z) /\
    d1 = Dir (Some l') (Some l) (Some p') (Some p).
Proof.
  intros d d1 E. unfold convert in E. destruct (d_lmk d) as [l|]; [|discriminate E]. destruct (d_pose d) as [p|]; [|discriminate E].
  cbn [of_option obind] in E. destruct (snd (convert_pose p) =? 0)%Z eqn:B.
  - destruct (proj1 (convert_lmk_iff l [])) as [[l' s'] Hq]. rewrite Hq in E. cbn [obind fst snd] in E. apply val_inj in E.
    injection E as <- ->. apply Z.eqb_eq in B. destruct (convert_pose p) as [p' s] eqn:Ep. cbn in B. subst.
    exists l, p, l', p'. auto.
  - apply val_inj in E. assert (snd (convert_pose p) = 0%Z) by congruence. apply Z.eqb_neq in B. contradiction.
Qed.

Lemma convert_thrice : forall d d1 : @dir A, convert d = Val (d1, 0%Z) ->
  exists d2 d3, convert d1 = Val (d2, 1%Z) /\ convert d2 = Val (d3, 1%Z) /\
    d_lmk d2 = Some [] /\ d_pose d2 = Some [] /\ d_lmk_bak d2 = d_lmk d1 /\ d_pose_bak d2 = d_pose d1 /\
    d3 = Dir (Some []) (Some []) (Some []) (Some []).
Proof.
  intros d d1 E. apply convert_zero in E as (l & p & l' & p' & _ & _ & _ & Hp & ->).
  destruct (convert_pose_new _ _ Hp) as [K1 K2].
  exists (Dir (Some []) (Some l') (Some []) (Some p')), (Dir (Some []) (Some []) (Some []) (Some [])).
  unfold convert. cbn [d_lmk d_pose of_option obind d_lmk_bak d_pose_bak]. rewrite K1, K2. cbn. auto 10.
Qed.
End Logs.

(** C174. *)
Section Pose.
Context {A T : Type}.
Lemma skipn_add : forall (l : list A) i j, skipn i (skipn j l) = skipn (j + i) l.
Proof. intros l i j. revert l. induction j as [|j IH]; intro l; [reflexivity|]. destruct l; cbn; [now rewrite skipn_nil|apply IH]. Qed.
Lemma pose_parts : forall np nr (p : @pose A T) (x r : list A), (np + nr <= length (ps_x p))%nat -> length x = np -> length r = nr ->
  getPos np (setPos np x p) = x /\ getRot np nr (setPos np x p) = getRot np nr p /\
  getRot np nr (setRot np nr r p) = r /\ getPos np (setRot np nr r p) = getPos np p /\
  ps_t (setPos np x p) = ps_t p /\ ps_t (setRot np nr r p) = ps_t p /\
  skipn (np + nr) (ps_x (setPos np x p)) = skipn (np + nr) (ps_x p) /\
  skipn (np + nr) (ps_x (setRot np nr r p)) = skipn (np + nr) (ps_x p) /\
  length (ps_x (setPos np x p)) = length (ps_x p) /\ length (ps_x (setRot np nr r p)) = length (ps_x p) /\
  setPos np x (setRot np nr r p) = setRot np nr r (setPos np x p) /\
  setPos np (getPos np p) p = p /\ setRot np nr (getRot np nr p) p = p.
Proof.
  intros np nr [v t] x r Hl Hx Hr. unfold getPos, getRot, setPos, setRot. cbn [ps_x ps_t] in *.
  assert (length (firstn np v) = np) as F by (rewrite firstn_length; lia).
  assert (forall a b : list A, length a = np -> firstn np (a ++ b) = a) as F1.
  { intros a b <-. rewrite firstn_app, Nat.sub_diag, firstn_all. cbn. now rewrite app_nil_r. }
  assert (forall a b : list A, length a = np -> skipn np (a ++ b) = b) as F2.
  { intros a b <-. rewrite skipn_app, Nat.sub_diag, skipn_all. reflexivity. }
  assert (forall a b : list A, length a = nr -> firstn nr (a ++ b) = a) as G1.
  { intros a b <-. rewrite firstn_app, Nat.sub_diag, firstn_all. cbn. now rewrite app_nil_r. }
  assert (forall a b : list A, length a = nr -> skipn nr (a ++ b) = b) as G2.
  { intros a b <-. rewrite skipn_app, Nat.sub_diag, skipn_all. reflexivity. }
  repeat split.
  - now apply F1.
  - now rewrite F2.
  - rewrite F2 by auto. now apply G1.
  - now rewrite F1.
  - rewrite <- (skipn_add _ nr np), F2 by auto. now rewrite skipn_add.
  - rewrite <- (skipn_add (_ ++ _) nr np), F2 by auto. now rewrite G2.
  - rewrite app_length, skipn_length. lia.
  - rewrite !app_length, skipn_length, F. lia.
  - f_equal. rewrite F2 by auto. rewrite F1 by auto. rewrite <- (skipn_add (x ++ _) nr np), F2 by auto. now rewrite skipn_add.
  - f_equal. apply firstn_skipn.
  - f_equal. rewrite <- (firstn_skipn np v) at 4. f_equal. rewrite <- skipn_add. apply firstn_skipn.
Qed.
Lemma pose_parts_t : forall np nr (p : @pose A T) (x r : list A) t,
  setPosT np x t p = setPos np x (Pose (ps_x p) t) /\ setRotT np nr r t p = setRot np nr r (Pose (ps_x p) t).
Proof. split; reflexivity. Qed.
End Pose.
