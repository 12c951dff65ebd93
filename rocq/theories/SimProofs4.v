(** Proofs about the log and its analysis: heaviest particle, rows of a step, heading error. *)
From Coq Require Import List Arith ZArith QArith Qcanon Lia Reals Lra Bool.
From Verif Require Import Base QcLra PermanentSpec SimModel SimSpec.
Import ListNotations.
Local Open Scope Qc_scope.

(** * Heaviest particle *)
Lemma best_from_none : forall ws i b w, existsb (Qcltb w) ws = false -> best_from i b w ws = b.
Proof.
  induction ws as [|v ws IH]; intros i b w H; [reflexivity|]. cbn [existsb best_from] in *.
  apply orb_false_iff in H. destruct H as (A & B). rewrite A. apply IH. exact B.
Qed.
Lemma best_from_some : forall ws i b b' w, existsb (Qcltb w) ws = true -> best_from i b w ws = best_from i b' w ws.
Proof.
  induction ws as [|v ws IH]; intros i b b' w H; [discriminate|]. cbn [existsb best_from] in *.
  destruct (Qcltb w v) eqn:E; [reflexivity|]. apply IH. exact H.
Qed.

Lemma best_from_spec : forall ws i b w, existsb (Qcltb w) ws = true ->
  exists j v, best_from i b w ws = (i + j)%nat /\ nth_error ws j = Some v /\ w < v /\
    (forall k u, nth_error ws k = Some u -> u <= v) /\ (forall k u, (k < j)%nat -> nth_error ws k = Some u -> u < v).
Proof.
  induction ws as [|x ws IH]; intros i b w H; [discriminate|]. cbn [existsb best_from] in *.
  destruct (Qcltb w x) eqn:E.
  - apply Qcltb_true in E. destruct (existsb (Qcltb x) ws) eqn:X.
    + destruct (IH (S i) i x X) as (j & v & B & N & L & M & S1). exists (S j), v. split; [rewrite B; lia|]. split; [exact N|].
      split; [qclra|]. split.
      * intros [|k] u Hu; cbn in Hu; [injection Hu as <-; qclra|]. apply (M k u Hu).
      * intros [|k] u Hk Hu; cbn in Hu; [injection Hu as <-; exact L|]. apply (S1 k u); [lia|exact Hu].
    + exists 0%nat, x. split; [rewrite best_from_none by exact X; lia|]. split; [reflexivity|]. split; [exact E|]. split; [|intros; lia].
      intros [|k] u Hu; cbn in Hu; [injection Hu as <-; apply Qcle_refl|].
      destruct (Qclt_le_dec x u) as [C|C]; [|exact C]. exfalso. apply nth_error_In in Hu.
      assert (existsb (Qcltb x) ws = true); [|congruence]. apply existsb_exists. exists u. split; [exact Hu|]. unfold Qcltb. destruct (Qclt_le_dec x u); [reflexivity|]. exfalso; qclra.
  - apply Qcltb_false in E. cbn [orb] in H. destruct (IH (S i) b w H) as (j & v & B & N & L & M & S1). exists (S j), v.
    split; [rewrite B; lia|]. split; [exact N|]. split; [exact L|]. split.
    + intros [|k] u Hu; cbn in Hu; [injection Hu as <-; qclra|]. apply (M k u Hu).
    + intros [|k] u Hk Hu; cbn in Hu; [injection Hu as <-; qclra|]. apply (S1 k u); [lia|exact Hu].
Qed.

Lemma best_heaviest : forall ws w, In w ws -> 0 < w -> heaviest ws (best_particle ws).
Proof.
  intros ws w Hw Hp. unfold best_particle.
  destruct (best_from_spec ws 0 0 0) as (j & v & B & N & L & M & S1).
  { apply existsb_exists. exists w. split; [exact Hw|]. unfold Qcltb. destruct (Qclt_le_dec 0 w); [reflexivity|]. exfalso; qclra. }
  rewrite B. exists v. cbn [Nat.add]. auto.
Qed.
Lemma best_zero : forall ws, (forall w, In w ws -> w <= 0) -> best_particle ws = 0%nat.
Proof.
  intros ws H. apply best_from_none. apply not_true_is_false. intro E. apply existsb_exists in E. destruct E as (w & Hw & L).
  apply Qcltb_true in L. specialize (H w Hw). qclra.
Qed.
Lemma heaviest_unique : forall ws i j, heaviest ws i -> heaviest ws j -> i = j.
Proof.
  intros ws i j (w & E & M & S1) (v & E' & M' & S').
  pose proof (M j v E') as A. pose proof (M' i w E) as B. destruct (Nat.lt_trichotomy i j) as [L|[L|L]]; [|exact L|].
  - specialize (S' i w L E). exfalso; qclra.
  - specialize (S1 j v L E'). exfalso; qclra.
Qed.

(** * Rows of a step *)
Section Read.
Variable tol : Qc.
Hypothesis tol_pos : 0 < tol.

Lemma near_same : forall t, near tol t t = true.
Proof.
  intro t. unfold near. replace (t - t) with 0 by ring. unfold Qcltb. destruct (Qclt_le_dec 0 tol); [reflexivity|]. exfalso; qclra.
Qed.
Lemma near_apart : forall t t', apart tol t t' -> near tol t t' = false.
Proof.
  intros t t' [H|H]; unfold near; apply andb_false_iff; [left|right]; unfold Qcltb; destruct (Qclt_le_dec _ tol) as [L|L]; auto; exfalso; qclra.
Qed.

(** The state after the rows of a step. *)
Definition after (t : Qc) (i : nat) (ws : list Qc) (s : pstate) : pstate :=
  PState (if existsb (Qcltb (whi s)) (map print6 ws) then Some (Z.of_nat (best_from i 0 (whi s) (map print6 ws))) else hi s)
         (fold_left (fun m w => if Qcltb m (print6 w) then print6 w else m) ws (whi s))
         (wsum s + qsum (map print6 ws)) (parts s ++ pose_rows_from i t ws).

Lemma after_cons : forall t i w ws s, after t (S i) ws
  (if Qcltb (whi s) (print6 w) then PState (Some (Z.of_nat i)) (print6 w) (wsum s + print6 w) (parts s ++ [PRow t (Z.of_nat i) (print6 w)])
   else PState (hi s) (whi s) (wsum s + print6 w) (parts s ++ [PRow t (Z.of_nat i) (print6 w)])) = after t i (w :: ws) s.
Proof.
  intros t i w ws s. unfold after. cbn [map existsb best_from fold_left pose_rows_from].
  change (qsum (print6 w :: map print6 ws)) with (print6 w + qsum (map print6 ws)).
  destruct (Qcltb (whi s) (print6 w)) eqn:E; cbn [whi hi wsum parts orb].
  - rewrite <- app_assoc. cbn [app]. f_equal; [|ring]. destruct (existsb (Qcltb (print6 w)) (map print6 ws)) eqn:X.
    + do 2 f_equal. apply best_from_some. exact X.
    + rewrite best_from_none by exact X. reflexivity.
  - rewrite <- app_assoc. cbn [app]. f_equal; ring.
Qed.

(** [fut] are the rows still to be used: the held row and the rest, or nothing when the file is at its
    end and the held row is apart from the times to come. *)
Definition pending {A : Type} (time : A -> Qc) (later : list Qc) (cur : A) (rows fut : list A) : Prop :=
  fut = cur :: rows \/ (fut = [] /\ rows = [] /\ forall t, In t later -> apart tol (time cur) t).

Lemma read_particles_step : forall t ws i cur rows fut s later,
  pending pr_t (t :: later) cur rows (pose_rows_from i t ws ++ fut) \/ 
  (exists r, cur = r /\ rows = [] /\ pose_rows_from i t ws ++ fut = [] /\ apart tol (pr_t r) t /\ (forall t', In t' later -> apart tol (pr_t r) t')) ->
  length (parts s) = i -> (forall r, In r fut -> apart tol (pr_t r) t) -> (forall t', In t' later -> apart tol t t') ->
  exists cur' rows', read_particles tol t cur rows s = Val (after t i ws s, cur', rows') /\ pending pr_t later cur' rows' fut.
Proof.
  intros t ws. induction ws as [|w ws IH]; intros i cur rows fut s later Hp Hl Hf Hlt.
  - assert (A : after t i [] s = s).
    { unfold after. cbn [map existsb fold_left pose_rows_from]. rewrite app_nil_r. change (qsum []) with 0. destruct s; cbn; f_equal; ring. }
    rewrite A. cbn [pose_rows_from app] in Hp.
    assert (N : near tol (pr_t cur) t = false).
    { destruct Hp as [[E|(_ & _ & H)]|(r & -> & _ & _ & H & _)]; apply near_apart.
      - apply Hf. rewrite E. left. reflexivity.
      - apply H. left. reflexivity.
      - exact H. }
    exists cur, rows. split; [destruct rows; cbn [read_particles]; rewrite N; reflexivity|].
    destruct Hp as [[E|(E1 & E2 & H)]|(r & -> & E2 & E1 & _ & H)]; [left; exact E| |]; right; split; auto; split; auto.
    intros; apply H; right; assumption.
  - cbn [pose_rows_from app] in Hp.
    destruct Hp as [[E|(E & _)]|(r & _ & _ & E & _)]; try discriminate. injection E as <- E.
    assert (T : take_particle (PRow t (Z.of_nat i) (print6 w)) s = Val (if Qcltb (whi s) (print6 w)
       then PState (Some (Z.of_nat i)) (print6 w) (wsum s + print6 w) (parts s ++ [PRow t (Z.of_nat i) (print6 w)])
       else PState (hi s) (whi s) (wsum s + print6 w) (parts s ++ [PRow t (Z.of_nat i) (print6 w)]))).
    { unfold take_particle, guard. cbn [pr_id pr_w].
      destruct (Qcltb (whi s) (print6 w)); cbn [parts]; rewrite app_length, Hl; cbn [length];
      (destruct (Z.leb_spec 0 (Z.of_nat i)); [|lia]); (destruct (Z.ltb_spec (Z.of_nat i) (Z.of_nat (i + 1))); [|lia]); reflexivity. }
    set (s' := if Qcltb (whi s) (print6 w) then _ else _) in T.
    assert (L' : length (parts s') = S i).
    { unfold s'. destruct (Qcltb (whi s) (print6 w)); cbn [parts]; rewrite app_length, Hl; cbn [length]; lia. }
    assert (Rd : read_particles tol t (PRow t (Z.of_nat i) (print6 w)) rows s =
      match rows with [] => Val (s', PRow t (Z.of_nat i) (print6 w), []) | r :: rows' => read_particles tol t r rows' s' end).
    { destruct rows; cbn [read_particles pr_t]; rewrite near_same, T; reflexivity. }
    rewrite Rd. rewrite <- after_cons. change (if Qcltb (whi s) (print6 w) then _ else _) with s'.
    destruct rows as [|r rows].
    + (* end of the file *)
      destruct ws as [|w' ws]; [|discriminate E]. cbn [pose_rows_from app] in E. subst fut.
      exists (PRow t (Z.of_nat i) (print6 w)), []. split.
      * assert (A : after t (S i) [] s' = s').
        { unfold after. cbn [map existsb fold_left pose_rows_from]. rewrite app_nil_r. change (qsum []) with 0. destruct s'; cbn; f_equal; ring. }
        rewrite A. reflexivity.
      * right. split; [reflexivity|]. split; [reflexivity|]. exact Hlt.
    + apply (IH (S i) r rows fut s' later); [|exact L'|exact Hf|exact Hlt]. left. left. exact E.
Qed.

(** The rows of landmarkEst.dat of a step. *)
Definition chosen (i_hi : option Z) (rs : list lrow) : list lrow :=
  filter (fun r => match i_hi with Some i => (lr_pid r =? i)%Z | None => false end) rs.
Definition strong (rs : list lrow) : list lrow := filter (fun r => Qcleb three_quarters (lr_w r)) rs.

Lemma read_map_step : forall t h rs cur rows fut m card later,
  pending lr_t (t :: later) cur rows (rs ++ fut) ->
  (forall r, In r rs -> lr_t r = t) -> (forall r, In r fut -> apart tol (lr_t r) t) -> (forall t', In t' later -> apart tol t t') ->
  exists cur' rows', read_map tol t (Some h) cur rows m card =
      Val (m ++ strong (chosen (Some h) rs), card + qsum (map lr_w (chosen (Some h) rs)), cur', rows') /\ pending lr_t later cur' rows' fut.
Proof.
  intros t h rs. induction rs as [|r rs IH]; intros cur rows fut m card later Hp Hr Hf Hl.
  - cbn [app] in Hp. cbn [chosen strong filter map]. rewrite app_nil_r. change (qsum []) with 0. rewrite Qcplus_0_r.
    assert (N : near tol (lr_t cur) t = false).
    { destruct Hp as [E|(_ & _ & H)]; apply near_apart.
      - apply Hf. rewrite E. left. reflexivity.
      - apply H. left. reflexivity. }
    exists cur, rows. split; [destruct rows; cbn [read_map]; rewrite N; reflexivity|].
    destruct Hp as [E|(E1 & E2 & H)]; [left; exact E|right]. split; [exact E1|]. split; [exact E2|]. intros; apply H; right; assumption.
  - cbn [app] in Hp. destruct Hp as [E|(E & _)]; [|discriminate]. injection E as <- E.
    assert (Tr : lr_t r = t) by (apply Hr; left; reflexivity).
    set (mc := if (lr_pid r =? h)%Z then ((if Qcleb three_quarters (lr_w r) then m ++ [r] else m), card + lr_w r) else (m, card)).
    assert (Rd : read_map tol t (Some h) r rows m card =
      match rows with [] => Val (fst mc, snd mc, r, []) | r' :: rows' => read_map tol t (Some h) r' rows' (fst mc) (snd mc) end).
    { unfold mc. destruct rows; cbn [read_map]; rewrite Tr, near_same; cbn [of_option obind]; destruct (lr_pid r =? h)%Z; reflexivity. }
    assert (F : fst mc ++ strong (chosen (Some h) rs) = m ++ strong (chosen (Some h) (r :: rs)) /\
                snd mc + qsum (map lr_w (chosen (Some h) rs)) = card + qsum (map lr_w (chosen (Some h) (r :: rs)))).
    { unfold mc. unfold chosen at 2 4. cbn [filter]. fold (chosen (Some h) rs). destruct (lr_pid r =? h)%Z; cbn [fst snd]; [|split; reflexivity].
      unfold strong at 2. cbn [filter map]. fold (strong (chosen (Some h) rs)).
      change (qsum (lr_w r :: map lr_w (chosen (Some h) rs))) with (lr_w r + qsum (map lr_w (chosen (Some h) rs))).
      split; [|ring]. destruct (Qcleb three_quarters (lr_w r)); [|reflexivity]. rewrite <- app_assoc. reflexivity. }
    destruct F as (F1 & F2). rewrite Rd, <- F1, <- F2. destruct rows as [|r' rows].
    + destruct rs; [|discriminate E]. cbn [app] in E. subst fut. exists r, []. split.
      * cbn [chosen strong filter map]. rewrite app_nil_r. change (qsum []) with 0. rewrite Qcplus_0_r. reflexivity.
      * right. split; [reflexivity|]. split; [reflexivity|]. rewrite Tr. exact Hl.
    + apply (IH r' rows fut (fst mc) (snd mc) later); [left; exact E| |exact Hf|exact Hl]. intros; apply Hr; right; assumption.
Qed.

(** ** All steps *)
Definition some_weight (g : logged) : Prop := exists w, In w (g_ws g) /\ 0 < print6 w.
Definition data_of (g : logged) : step_data :=
  let h := best_particle (map print6 (g_ws g)) in
  let rs := chosen (Some (Z.of_nat h)) (map_rows (g_t g) (g_ws g) (g_map g)) in
  StepData (pose_rows (g_t g) (g_ws g)) (Some (Z.of_nat h)) (qsum (map print6 (g_ws g))) (strong rs) (qsum (map lr_w rs)).

Lemma pose_rows_time : forall ws i t r, In r (pose_rows_from i t ws) -> pr_t r = t.
Proof. induction ws as [|w ws IH]; intros i t r H; [destruct H|]. destruct H as [<-|H]; [reflexivity|]. exact (IH _ _ _ H). Qed.
Lemma map_rows_time : forall t ws gm r, In r (map_rows t ws gm) -> lr_t r = t.
Proof. intros t ws gm r H. apply in_map_iff in H. destruct H as (w & <- & _). reflexivity. Qed.
Lemma apart_sym : forall t t', apart tol t t' -> apart tol t' t.
Proof. intros t t' [H|H]; [right|left]; exact H. Qed.

Lemma existsb_positive : forall g, some_weight g -> existsb (Qcltb 0) (map print6 (g_ws g)) = true.
Proof.
  intros g (w & Hw & L). apply existsb_exists. exists (print6 w). split; [apply in_map; exact Hw|].
  unfold Qcltb. destruct (Qclt_le_dec 0 (print6 w)); [reflexivity|]. exfalso; qclra.
Qed.

Lemma read_all : forall log rd, all_apart tol (map g_t log) -> (forall g, In g log -> some_weight g) ->
  pending pr_t (map g_t log) (r_p rd) (r_ps rd) (flat_map (fun g => pose_rows (g_t g) (g_ws g)) log) ->
  pending lr_t (map g_t log) (r_l rd) (r_ls rd) (log_map log) ->
  read_steps tol (map g_t log) rd = Val (map data_of log).
Proof.
  induction log as [|g log IH]; intros rd Ap Pos Pp Pl; [reflexivity|].
  cbn [map read_steps flat_map log_map] in *. destruct Ap as (Ap1 & Ap2). unfold log_map in Pl. cbn [flat_map] in Pl. fold (log_map log) in Pl.
  destruct (read_particles_step (g_t g) (g_ws g) 0 (r_p rd) (r_ps rd) (flat_map (fun g => pose_rows (g_t g) (g_ws g)) log) (PState (r_hi rd) 0 0 []) (map g_t log))
    as (cur & rows & E1 & P1).
  { left. exact Pp. }
  { reflexivity. }
  { intros r Hr. apply in_flat_map in Hr. destruct Hr as (g' & Hg & Hr). apply pose_rows_time in Hr. rewrite Hr. apply apart_sym. apply Ap1. apply in_map. exact Hg. }
  { exact Ap1. }
  pose proof (existsb_positive g (Pos g (or_introl eq_refl))) as Ex.
  unfold read_step. rewrite E1. cbn [obind]. unfold after at 1. cbn [hi whi]. rewrite Ex.
  destruct (read_map_step (g_t g) (Z.of_nat (best_from 0 0 0 (map print6 (g_ws g)))) (map_rows (g_t g) (g_ws g) (g_map g)) (r_l rd) (r_ls rd) (log_map log) [] 0 (map g_t log))
    as (cur2 & rows2 & E2 & P2).
  { exact Pl. }
  { intros r Hr. exact (map_rows_time _ _ _ _ Hr). }
  { intros r Hr. apply in_flat_map in Hr. destruct Hr as (g' & Hg & Hr). apply map_rows_time in Hr. rewrite Hr. apply apart_sym. apply Ap1. apply in_map. exact Hg. }
  { exact Ap1. }
  rewrite E2. cbn [obind]. rewrite IH.
  - unfold omap. cbn [obind map]. do 2 f_equal. unfold data_of, after. cbn [parts wsum hi whi app]. rewrite Ex. unfold best_particle, pose_rows.
    rewrite !Qcplus_0_l. reflexivity.
  - exact Ap2.
  - intros; apply Pos; right; assumption.
  - exact P1.
  - exact P2.
Qed.

Lemma read_log : forall log ps p ls l, all_apart tol (map g_t log) -> (forall g, In g log -> some_weight g) ->
  flat_map (fun g => pose_rows (g_t g) (g_ws g)) log = p :: ps -> log_map log = l :: ls ->
  obind (open_reader (p :: ps) (l :: ls)) (read_steps tol (map g_t log)) = Val (map data_of log).
Proof.
  intros log ps p ls l Ap Pos Ep El. cbn [open_reader obind]. apply read_all; auto.
  - left. exact Ep.
  - left. exact El.
Qed.
End Read.

(** The rows kept for the map are those of the logged particle exactly when the reader picks it. *)
Lemma chosen_map : forall t ws gm h, chosen (Some (Z.of_nat h)) (map_rows t ws gm) =
  if Nat.eqb h (best_particle ws) then map_rows t ws gm else [].
Proof.
  intros t ws gm h. unfold map_rows, chosen. induction (gm (best_particle ws)) as [|w l IH]; [destruct (Nat.eqb _ _); reflexivity|].
  cbn [map filter lr_pid]. rewrite IH. destruct (Nat.eqb_spec h (best_particle ws)) as [->|N].
  - rewrite Z.eqb_refl. reflexivity.
  - destruct (Z.eqb_spec (Z.of_nat (best_particle ws)) (Z.of_nat h)); [lia|reflexivity].
Qed.

(** * Heading error *)
Local Close Scope Qc_scope.
Local Open Scope R_scope.
Lemma heading_wrapped : forall est gt, - PI <= est <= PI -> - PI <= gt <= PI ->
  - PI <= heading_error est gt <= PI /\ same_direction (heading_error est gt) (est - gt).
Proof.
  intros est gt He Hg. pose proof PI_RGT_0 as HP. unfold heading_error. destruct (Rlt_dec PI (est - gt)) as [A|A]; [|destruct (Rlt_dec (est - gt) (- PI)) as [B|B]].
  - split; [lra|]. unfold same_direction. set (e := est - gt - 2 * PI).
    replace (est - gt) with (e + 2 * PI) by (unfold e; ring). rewrite cos_plus, sin_plus, cos_2PI, sin_2PI. split; ring.
  - split; [lra|]. unfold same_direction. rewrite cos_plus, sin_plus, cos_2PI, sin_2PI. split; ring.
  - split; [lra|]. split; reflexivity.
Qed.

(** * Average error *)
Lemma fold_error : forall (P : Type) (err : P -> R) ps s, fold_left (fun s p => s + err (snd p) * fst p) ps s =
  s + fold_right Rplus 0 (map (fun p => err (snd p) * fst p) ps).
Proof.
  intros P err. induction ps as [|p ps IH]; intro s; cbn [fold_left fold_right map]; [ring|]. rewrite IH. ring.
Qed.
Lemma average_between : forall (P : Type) (err : P -> R) ps lo hi, 0 < fold_right Rplus 0 (map fst ps) ->
  (forall p, In p ps -> 0 <= fst p /\ lo <= err (snd p) <= hi) ->
  exists e, average_error err (fold_right Rplus 0 (map fst ps)) ps = Some e /\ lo <= e <= hi.
Proof.
  intros P err ps lo hi Hw H. set (w := fold_right Rplus 0 (map fst ps)) in *.
  unfold average_error. destruct (Req_EM_T w 0) as [E|_]; [lra|]. rewrite fold_error, Rplus_0_l.
  set (s := fold_right Rplus 0 (map (fun p => err (snd p) * fst p) ps)).
  assert (B : lo * w <= s <= hi * w).
  { unfold s, w. clear Hw s w. induction ps as [|p ps IH]; cbn [map fold_right]; [lra|].
    destruct (H p (or_introl eq_refl)) as (A & L & U). specialize (IH ltac:(intros; apply H; right; assumption)).
    assert (lo * fst p <= err (snd p) * fst p) by (apply Rmult_le_compat_r; assumption).
    assert (err (snd p) * fst p <= hi * fst p) by (apply Rmult_le_compat_r; assumption). lra. }
  exists (s / w). split; [reflexivity|]. split.
  - apply (Rmult_le_reg_r w); [exact Hw|]. unfold Rdiv. rewrite Rmult_assoc, Rinv_l by lra. lra.
  - apply (Rmult_le_reg_r w); [exact Hw|]. unfold Rdiv. rewrite Rmult_assoc, Rinv_l by lra. lra.
Qed.

Lemma best_error_right : forall (P : Type) (err : P -> R) (ws : list Qc) (parts : list P) w, In w ws -> (0 < w)%Qc ->
  length parts = length ws ->
  exists i p, heaviest ws i /\ nth_error parts i = Some p /\
              best_error err (best_particle ws) (combine (map (fun v => Q2R (this v)) ws) parts) = err p.
Proof.
  intros P err ws parts w Hw Hp L. pose proof (best_heaviest ws w Hw Hp) as B. exists (best_particle ws).
  destruct B as (v & E & M). assert (Lt : (best_particle ws < length ws)%nat) by (apply nth_error_Some; congruence).
  destruct (nth_error parts (best_particle ws)) as [p|] eqn:Ep.
  2:{ apply nth_error_None in Ep. exfalso. lia. }
  exists p. split; [exists v; split; [exact E|exact M]|]. split; [reflexivity|]. unfold best_error.
  assert (C : forall (l : list Qc) (l' : list P) i v p, nth_error l i = Some v -> nth_error l' i = Some p ->
    nth_error (combine (map (fun v => Q2R (this v)) l) l') i = Some (Q2R (this v), p)).
  { clear. induction l as [|a l IH]; intros l' [|i] v p A B; try discriminate; destruct l' as [|b l']; try discriminate; cbn in *.
    - injection A as ->. injection B as ->. reflexivity.
    - apply IH; assumption. }
  rewrite (C ws parts _ v p E Ep). cbn [snd]. ring.
Qed.
