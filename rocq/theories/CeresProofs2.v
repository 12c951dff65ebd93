(** The parameter vector of RFSCeresSLAM. *)
From Coq Require Import ZArith List Bool Arith Lia.
From Verif Require Import Base ListUtil Loop CeresModel CeresSpec.
Import ListNotations.
Local Open Scope nat_scope.

Section Parameters.
Context {A : Type}.
Variable zero : A.
Variables P D : nat.

Lemma wr_next : forall pre (rest : list (option A)) x y i, i = length pre ->
  wr (map Some pre ++ y :: rest) i x = Val (map Some (pre ++ [x]) ++ rest).
Proof.
  intros pre rest x y i ->. unfold wr, guard. rewrite app_length, map_length. cbn [length].
  destruct (Nat.ltb_spec (length pre) (length pre + S (length rest))); [|lia]. f_equal.
  rewrite map_app, <- app_assoc. cbn [map app]. rewrite upd_app2 by (rewrite map_length; lia).
  rewrite map_length, Nat.sub_diag. reflexivity.
Qed.

Lemma skip_skip : forall {X : Type} n m (l : list X), skipn n (skipn m l) = skipn (n + m) l.
Proof.
  intros X n m. induction m as [|m IH]; intros l; [rewrite Nat.add_0_r; reflexivity|].
  rewrite Nat.add_succ_r. destruct l as [|a l]; cbn [skipn]; [apply skipn_nil|]. apply IH.
Qed.

(** Writing a row. *)
Lemma write_row : forall W (row pre : list A) (tail : list (option A)) (get : nat -> outcome A) o junk, length row = W ->
  length junk = W -> (forall d, d < W -> get d = of_option OutOfBounds (nth_error row d)) -> o = length pre ->
  for_ W (fun d a => let* x := get d in wr a (o + d) x) (map Some pre ++ junk ++ tail) =
  Val (map Some (pre ++ row) ++ tail).
Proof.
  intros W row pre tail get o junk HL HJ Hg Ho.
  destruct (for_inv (fun d a => a = map Some (pre ++ firstn d row) ++ skipn d junk ++ tail)
    (fun d a => let* x := get d in wr a (o + d) x) W (map Some pre ++ junk ++ tail)) as (a & E & Ha).
  - cbn [firstn skipn]. rewrite app_nil_r. reflexivity.
  - intros d a Hd ->. rewrite Hg by exact Hd. destruct (nth_error row d) as [x|] eqn:Ex; [|apply nth_error_None in Ex; lia].
    cbn [of_option obind].
    destruct (skipn d junk) as [|y js] eqn:Ej.
    { assert (K := skipn_length d junk). rewrite Ej in K. cbn in K. lia. }
    cbn [app]. rewrite wr_next by (rewrite app_length, firstn_length; lia).
    eexists. split; [reflexivity|]. f_equal.
    + rewrite <- app_assoc. f_equal. f_equal.
      rewrite <- (firstn_skipn (S d) row) in Ex. clear - Ex Hd HL.
      revert d Hd Ex. revert W HL. induction row as [|r row IH]; intros W HL d Hd Ex; [cbn in *; lia|].
      destruct d as [|d]; cbn in *; [injection Ex as ->; reflexivity|]. f_equal. apply (IH (W - 1)); [lia|lia|exact Ex].
    + f_equal. clear - Ej. revert d Ej. induction junk as [|j junk IH]; intros [|d] Ej; cbn in *; try discriminate.
      * injection Ej as _ ->. reflexivity.
      * apply IH. exact Ej.
  - rewrite E, Ha. rewrite firstn_all2 by lia. rewrite skipn_all2 by lia. reflexivity.
Qed.

Lemma write_rows : forall W (rows : list (list A)) pre (tail : list (option A)) (get : nat -> nat -> outcome A) o junk,
  wide W rows -> length junk = length rows * W ->
  (forall i d, i < length rows -> d < W -> get i d = comp rows i d) -> o = length pre ->
  for_ (length rows) (fun i a => for_ W (fun d a => let* x := get i d in wr a (o + i * W + d) x) a) (map Some pre ++ junk ++ tail) =
  Val (map Some (pre ++ concat rows) ++ tail).
Proof.
  intros W rows pre tail get o junk HW HJ Hg Ho.
  destruct (for_inv (fun i a => a = map Some (pre ++ concat (firstn i rows)) ++ skipn (i * W) junk ++ tail)
    (fun i a => for_ W (fun d a => let* x := get i d in wr a (o + i * W + d) x) a) (length rows) (map Some pre ++ junk ++ tail)) as (a & E & Ha).
  - cbn [firstn concat Nat.mul skipn]. rewrite app_nil_r. reflexivity.
  - intros i a Hi ->. destruct (nth_error rows i) as [row|] eqn:Er; [|apply nth_error_None in Er; lia].
    assert (HR : length row = W) by (eapply Forall_forall in HW; [exact HW|eapply nth_error_In; exact Er]).
    assert (Hc : length (concat (firstn i rows)) = i * W).
    { clear - HW Hi. revert i Hi. induction rows as [|r rows IH]; intros i Hi; [cbn in *; lia|].
      inversion HW; subst. destruct i as [|i]; [reflexivity|]. cbn [firstn concat]. rewrite app_length, IH by (auto; cbn in Hi; lia). lia. }
    rewrite <- (firstn_skipn W (skipn (i * W) junk)), <- app_assoc, skip_skip.
    rewrite (write_row W row (pre ++ concat (firstn i rows)) _ (get i) (o + i * W)); [| | | |].
    + eexists. split; [reflexivity|]. replace (S i * W) with (W + i * W) by lia. f_equal.
      f_equal. rewrite <- app_assoc. f_equal.
        clear - Er. revert i Er. induction rows as [|r rows IH]; intros [|i] Er; cbn in *; try discriminate.
        * injection Er as ->. rewrite app_nil_r. reflexivity.
        * rewrite <- app_assoc. f_equal. apply IH. exact Er.
    + exact HR.
    + rewrite firstn_length, skipn_length. assert ((i + 1) * W <= length rows * W) by (apply Nat.mul_le_mono_r; lia). lia.
    + intros d Hd. rewrite Hg by assumption. unfold comp. rewrite Er. reflexivity.
    + rewrite app_length, Hc. lia.
  - rewrite E, Ha. rewrite firstn_all2 by lia. rewrite skipn_all2 by lia. reflexivity.
Qed.

Lemma for_ext : forall {S : Type} n (f g : nat -> S -> outcome S) s, (forall k t, k < n -> f k t = g k t) -> for_ n f s = for_ n g s.
Proof.
  intros S n f g s H. unfold for_.
  assert (G : forall d k t, k + d = n -> for_from f k d t = for_from g k d t).
  { induction d as [|d IH]; intros k t E; cbn [for_from]; [reflexivity|]. rewrite H by lia. destruct (g k t); cbn [obind]; auto. apply IH. lia. }
  apply G. reflexivity.
Qed.

Lemma length_concat : forall W (l : list (list A)), wide W l -> length (concat l) = length l * W.
Proof. intros W. induction l as [|x l IH]; intros H; [reflexivity|]. inversion H; subst. cbn [concat length]. rewrite app_length, IH by assumption. lia. Qed.

(** init writes the poses after the first and the landmarks, one after the other. *)
Theorem init_layout : forall p0 traj lms, wide P traj -> wide D lms ->
  c_init P D (p0 :: traj) lms = Val (map (@Some A) (concat traj ++ concat lms)).
Proof.
  intros p0 traj lms HP HD. unfold c_init, num_parameters.
  cbn [length]. rewrite Nat.sub_succ, Nat.sub_0_r. rewrite repeat_app.
  rewrite (for_ext (length traj) _ (fun i a => for_ P (fun d a => let* x := comp (p0 :: traj) (i + 1) d in wr a (0 + i * P + d) x) a)) by reflexivity.
  rewrite <- (app_nil_l (repeat None (length traj * P) ++ _)). change (@nil (option A)) with (map (@Some A) []).
  rewrite (write_rows P traj [] (repeat None (length lms * D)) (fun i d => comp (p0 :: traj) (i + 1) d) 0 (repeat None (length traj * P)));
    [|exact HP|apply repeat_length| |reflexivity].
  2:{ intros i d Hi Hd. unfold comp. rewrite Nat.add_1_r. reflexivity. }
  cbn [obind app]. rewrite <- (app_nil_r (repeat None (length lms * D))).
  rewrite (write_rows D lms (concat traj) [] (fun m d => comp lms m d) (length traj * P) (repeat None (length lms * D)));
    [|exact HD|apply repeat_length|reflexivity|rewrite length_concat with (W := P); [reflexivity|exact HP]].
  rewrite app_nil_r. reflexivity.
Qed.

(** ** Reading *)
Lemma upd_upd : forall {X : Type} (l : list X) i x y, upd (upd l i x) i y = upd l i y.
Proof. induction l as [|a l IH]; intros [|i] x y; cbn; congruence. Qed.
Lemma upd_self : forall {X : Type} (l : list X) i x, nth_error l i = Some x -> upd l i x = l.
Proof. induction l as [|a l IH]; intros [|i] x H; cbn in *; try discriminate; [congruence|]. f_equal. auto. Qed.

Lemma read_row : forall W (t : list (list A)) k row (vals : nat -> outcome A) new, nth_error t k = Some row -> length row = W -> length new = W ->
  (forall d, d < W -> vals d = of_option OutOfBounds (nth_error new d)) ->
  for_ W (fun d t => let* v := vals d in set_comp t k d v) t = Val (upd t k new).
Proof.
  intros W t k row vals new Hk HL HN Hv.
  assert (Hkl : k < length t) by (apply nth_error_Some; congruence).
  destruct (for_inv (fun d x => x = upd t k (firstn d new ++ skipn d row)) (fun d t => let* v := vals d in set_comp t k d v) W t) as (x & E & Hx).
  - cbn [firstn skipn app]. symmetry. apply upd_self. exact Hk.
  - intros d x Hd ->. rewrite Hv by exact Hd. destruct (nth_error new d) as [v|] eqn:Ev; [|apply nth_error_None in Ev; lia].
    cbn [of_option obind]. unfold set_comp. rewrite nth_error_upd_eq by exact Hkl. cbn [of_option obind].
    unfold guard. rewrite app_length, firstn_length, skipn_length.
    destruct (Nat.ltb_spec d (Nat.min d (length new) + (length row - d))); [|lia].
    eexists. split; [reflexivity|]. rewrite upd_upd. f_equal.
    rewrite upd_app2 by (rewrite firstn_length; lia). rewrite firstn_length.
    replace (d - Nat.min d (length new)) with 0 by lia.
    destruct (skipn d row) as [|y js] eqn:Ej. { assert (K := skipn_length d row). rewrite Ej in K. cbn in K. lia. }
    cbn [upd]. replace (skipn (S d) row) with js.
    + rewrite <- (app_nil_l js) at 1. rewrite app_comm_cons, app_assoc. f_equal.
      clear - Ev. revert d Ev. induction new as [|r new IH]; intros [|d] Ev; cbn in *; try discriminate; [congruence|]. f_equal. auto.
    + clear - Ej. revert d Ej. induction row as [|j row IH]; intros [|d] Ej; cbn in *; try discriminate.
      * injection Ej as _ ->. reflexivity.
      * symmetry in IH |- *. symmetry. rewrite (IH d Ej). reflexivity.
  - rewrite E, Hx. rewrite firstn_all2 by lia. rewrite skipn_all2 by lia. rewrite app_nil_r. reflexivity.
Qed.

Lemma read_rows : forall W (head t : list (list A)) (vals : nat -> nat -> outcome A) new, wide W t -> wide W new -> length new = length t ->
  (forall i d, i < length t -> d < W -> vals i d = comp new i d) ->
  for_ (length t) (fun i x => for_ W (fun d x => let* v := vals i d in set_comp x (length head + i) d v) x) (head ++ t) = Val (head ++ new).
Proof.
  intros W head t vals new HW HN HL Hv.
  destruct (for_inv (fun i x => x = head ++ firstn i new ++ skipn i t)
    (fun i x => for_ W (fun d x => let* v := vals i d in set_comp x (length head + i) d v) x) (length t) (head ++ t)) as (x & E & Hx).
  - reflexivity.
  - intros i x Hi ->. destruct (nth_error t i) as [row|] eqn:Er; [|apply nth_error_None in Er; lia].
    destruct (nth_error new i) as [nr|] eqn:En; [|apply nth_error_None in En; lia].
    assert (L1 : length row = W) by (eapply Forall_forall in HW; [exact HW|eapply nth_error_In; exact Er]).
    assert (L2 : length nr = W) by (eapply Forall_forall in HN; [exact HN|eapply nth_error_In; exact En]).
    assert (Sk : skipn i t = row :: skipn (S i) t).
    { clear - Er. revert i Er. induction t as [|r t IH]; intros [|i] Er; cbn in *; try discriminate; [congruence|]. apply IH. exact Er. }
    assert (Lf : length (head ++ firstn i new) = length head + i) by (rewrite app_length, firstn_length; lia).
    rewrite (read_row W _ (length head + i) row (vals i) nr); [| |exact L1|exact L2|].
    + eexists. split; [reflexivity|]. rewrite app_assoc, Sk, upd_app2 by lia. rewrite Lf, Nat.sub_diag. cbn [upd].
      rewrite <- app_assoc. f_equal. rewrite <- (app_nil_l (skipn (S i) t)) at 1. rewrite app_comm_cons, app_assoc. f_equal.
      clear - En. revert i En. induction new as [|r new IH]; intros [|i] En; cbn in *; try discriminate; [congruence|]. f_equal. auto.
    + rewrite app_assoc, Sk, nth_error_app2 by lia. rewrite Lf, Nat.sub_diag. reflexivity.
    + intros d Hd. rewrite Hv by assumption. unfold comp. rewrite En. reflexivity.
  - rewrite E, Hx. rewrite firstn_all2 by lia. rewrite skipn_all2 by lia. rewrite app_nil_r. reflexivity.
Qed.

Lemma nth_concat : forall W (l : list (list A)) i d, wide W l -> i < length l -> d < W -> nth_error (concat l) (i * W + d) = 
  match nth_error l i with Some r => nth_error r d | None => None end.
Proof.
  intros W. induction l as [|x l IH]; intros i d H Hi Hd; [cbn in Hi; lia|]. inversion H; subst. destruct i as [|i]; cbn [concat nth_error].
  - rewrite Nat.mul_0_l, Nat.add_0_l. apply nth_error_app1. lia.
  - rewrite nth_error_app2 by lia. replace (S i * length x + d - length x) with (i * length x + d) by lia. apply IH; [assumption|cbn in Hi; lia|exact Hd].
Qed.

(** Evaluate puts the poses and landmarks of the array in place, and the first pose at zero. *)
Theorem load_layout : forall p0 traj lms p0' traj' lms', wide P traj -> wide D lms -> length p0' = P -> wide P traj' -> wide D lms' ->
  length traj = length traj' -> length lms = length lms' -> p0 = repeat zero P ->
  c_load zero P D (concat traj ++ concat lms) (p0' :: traj') lms' = Val (p0 :: traj, lms).
Proof.
  intros p0 traj lms p0' traj' lms' HP HD H0 HP' HD' HL HM ->. unfold c_load.
  rewrite (for_ext P _ (fun d t => let* v := Val zero in set_comp t 0 d v)) by reflexivity.
  rewrite (read_row P (p0' :: traj') 0 p0' (fun _ => Val zero) (repeat zero P)); [|reflexivity|exact H0|apply repeat_length|].
  2:{ intros d Hd. rewrite nth_error_repeat by exact Hd. reflexivity. }
  cbn [obind upd length]. rewrite Nat.sub_succ, Nat.sub_0_r.
  set (a := concat traj ++ concat lms).
  rewrite (for_ext (length traj') _ (fun i t => for_ P (fun d t => let* v := of_option OutOfBounds (nth_error a (i * P + d)) in
      set_comp t (length [repeat zero P] + i) d v) t)).
  2:{ intros k t Hk. cbn [length]. rewrite Nat.add_comm. reflexivity. }
  change (repeat zero P :: traj') with ([repeat zero P] ++ traj').
  rewrite (read_rows P [repeat zero P] traj' (fun i d => of_option OutOfBounds (nth_error a (i * P + d))) traj HP' HP HL).
  2:{ intros i d Hi Hd. unfold a, comp.
      rewrite nth_error_app1 by (rewrite (length_concat P) by exact HP; assert ((i + 1) * P <= length traj * P) by (apply Nat.mul_le_mono_r; lia); lia).
      rewrite (nth_concat P) by (auto; lia). destruct (nth_error traj i) eqn:E; [reflexivity|]. apply nth_error_None in E. lia. }
  cbn [obind].
  assert (E := read_rows D [] lms' (fun i d => of_option OutOfBounds (nth_error a (length traj' * P + i * D + d))) lms HD' HD HM).
  cbn [app length Nat.add] in E. rewrite E; [reflexivity|].
  intros i d Hi Hd. unfold a, comp. rewrite nth_error_app2 by (rewrite (length_concat P) by exact HP; lia).
  rewrite (length_concat P) by exact HP. rewrite HL. replace (length traj' * P + i * D + d - length traj' * P) with (i * D + d) by lia.
  rewrite (nth_concat D) by (auto; lia). destruct (nth_error lms i) eqn:E1; [reflexivity|]. apply nth_error_None in E1. lia.
Qed.

(** Every array is the array of some trajectory and map. *)
Lemma cut : forall W n (a : list A), length a = n * W -> exists rows, wide W rows /\ length rows = n /\ concat rows = a.
Proof.
  intros W. induction n as [|n IH]; intros a H.
  - exists []. split; [constructor|]. split; [reflexivity|]. destruct a; [reflexivity|discriminate].
  - destruct (IH (skipn W a)) as (rows & H1 & H2 & H3). { rewrite skipn_length. cbn in H. lia. }
    exists (firstn W a :: rows). split; [|split].
    + constructor; [|exact H1]. rewrite firstn_length. cbn in H. lia.
    + cbn. congruence.
    + cbn [concat]. rewrite H3. apply firstn_skipn.
Qed.

Theorem load_onto : forall a p0' traj' lms', length p0' = P -> wide P traj' -> wide D lms' ->
  length a = num_parameters P D (S (length traj')) (length lms') ->
  exists traj lms, c_load zero P D a (p0' :: traj') lms' = Val (repeat zero P :: traj, lms) /\
  wide P traj /\ wide D lms /\ length traj = length traj' /\ length lms = length lms' /\
  c_init P D (repeat zero P :: traj) lms = Val (map Some a).
Proof.
  intros a p0' traj' lms' H0 HP HD HL. unfold num_parameters in HL. rewrite Nat.sub_succ, Nat.sub_0_r in HL.
  destruct (cut P (length traj') (firstn (length traj' * P) a)) as (traj & A1 & A2 & A3). { rewrite firstn_length. lia. }
  destruct (cut D (length lms') (skipn (length traj' * P) a)) as (lms & B1 & B2 & B3). { rewrite skipn_length. lia. }
  assert (E : a = concat traj ++ concat lms) by (rewrite A3, B3; symmetry; apply firstn_skipn).
  exists traj, lms. split; [|repeat (split; [assumption|])].
  - rewrite E. apply load_layout; auto.
  - rewrite init_layout by assumption. rewrite <- E. reflexivity.
Qed.

(** The gradient array of the caller is filled from end to end, in the order of the parameters. *)
Theorem gradient_layout : forall neg nT nL tg lg (g : list (option A)), length tg = (nT - 1) * P -> length lg = nL * D ->
  length g = num_parameters P D nT nL -> c_gradient P neg nT tg lg g = Val (map Some (map neg (tg ++ lg))).
Proof.
  intros neg nT nL tg lg g HT HG HL. unfold c_gradient, num_parameters in *.
  assert (E1 := write_row (length tg) (map neg tg) [] (skipn (length tg) g) (fun i => let* x := of_option OutOfBounds (nth_error tg i) in Val (neg x)) 0 (firstn (length tg) g)).
  cbn [map app] in E1. rewrite firstn_skipn in E1.
  rewrite (for_ext (length tg) _ (fun d a => let* x := (let* x := of_option OutOfBounds (nth_error tg d) in Val (neg x)) in wr a (0 + d) x)).
  2:{ intros k t Hk. destruct (nth_error tg k); reflexivity. }
  rewrite E1; [|apply map_length|rewrite firstn_length; lia| |reflexivity].
  2:{ intros d Hd. rewrite nth_error_map. destruct (nth_error tg d); reflexivity. }
  cbn [obind].
  rewrite (for_ext (length lg) _ (fun d a => let* x := (let* x := of_option OutOfBounds (nth_error lg d) in Val (neg x)) in wr a ((nT - 1) * P + d) x)).
  2:{ intros k t Hk. destruct (nth_error lg k); reflexivity. }
  rewrite <- (app_nil_r (skipn (length tg) g)).
  rewrite (write_row (length lg) (map neg lg) (map neg tg) [] (fun i => let* x := of_option OutOfBounds (nth_error lg i) in Val (neg x)) ((nT - 1) * P) (skipn (length tg) g)).
  - rewrite app_nil_r, !map_app. reflexivity.
  - apply map_length.
  - rewrite skipn_length. lia.
  - intros d Hd. rewrite nth_error_map. destruct (nth_error lg d); reflexivity.
  - rewrite map_length. congruence.
Qed.
End Parameters.
