(** Moving the map of a particle: landmarks and velocities stay paired. *)
From Coq Require Import ZArith List Bool Arith Lia Permutation.
From Verif Require Import Base ListUtil Loop AssignSpec OspaModel OspaProofs2 PsoModel PsoSpec.
Import ListNotations.
Local Open Scope nat_scope.

Definition rot {B} (R : list B) : list B := match R with [] => [] | x :: _ => last R x :: removelast R end.

Lemma rot_perm : forall {B} (R : list B), Permutation (rot R) R.
Proof.
  intros B [|x R]; [constructor|]. unfold rot. rewrite (app_removelast_last x (l := x :: R)) at 3 by discriminate. apply Permutation_cons_append.
Qed.

Lemma drop_swap_mid : forall {B} (F R : list B) x, drop_swap (F ++ x :: R) (length F) = Val (F ++ rot R).
Proof.
  intros B F R x. unfold drop_swap. rewrite app_length. cbn [length].
  replace (length F <? length F + S (length R)) with true by (symmetry; apply Nat.ltb_lt; lia).
  replace (length F + S (length R) - 1) with (length F + length R) by lia.
  rewrite nth_error_app2 by lia. replace (length F + length R - length F) with (length R) by lia.
  assert (U : forall z, upd (F ++ x :: R) (length F) z = F ++ z :: R).
  { intro z. apply list_ext. intro i. destruct (Nat.eq_dec i (length F)) as [->|Hn].
    - rewrite nth_error_upd_eq by (rewrite app_length; cbn; lia). rewrite nth_error_app2 by lia. rewrite Nat.sub_diag. reflexivity.
    - rewrite nth_error_upd_neq by congruence. destruct (lt_dec i (length F)).
      + rewrite !nth_error_app1 by assumption. reflexivity.
      + rewrite !nth_error_app2 by lia. destruct (i - length F) eqn:E; [lia|]. reflexivity. }
  destruct R as [|y R] using rev_ind; [|clear IHR].
  - cbn [length nth_error of_option obind]. rewrite U. rewrite removelast_app by discriminate. cbn. reflexivity.
  - rewrite app_length. cbn [length]. rewrite Nat.add_1_r. cbn [nth_error]. rewrite nth_error_app2 by lia. rewrite Nat.sub_diag. cbn [nth_error of_option obind].
    rewrite U. rewrite removelast_app by discriminate. f_equal. f_equal.
    change (y :: R ++ [y]) with ((y :: R) ++ [y]). rewrite removelast_last.
    unfold rot. destruct (R ++ [y]) as [|z m] eqn:E; [destruct R; discriminate|]. rewrite <- E, last_last, removelast_last. reflexivity.
Qed.

Lemma map_rot : forall {B C} (f : B -> C) R, map f (rot R) = rot (map f R).
Proof.
  intros B C f [|x R]; [reflexivity|]. unfold rot. cbn [map].
  assert (L : forall l a, f (last (a :: l) a) = last (f a :: map f l) (f a)).
  { intros l a. generalize a at 2 4 as z. revert a. induction l as [|b l IH]; intros a z; [reflexivity|]. change (f (last (b :: l) z) = last (f b :: map f l) (f z)). apply IH. }
  assert (M : forall l : list B, map f (removelast l) = removelast (map f l)).
  { induction l as [|a l IH]; [reflexivity|]. cbn. destruct l; [reflexivity|]. cbn in *. rewrite IH. reflexivity. }
  rewrite L, M. reflexivity.
Qed.

Lemma firstn_snoc : forall {B} (l : list B) i x, nth_error l i = Some x -> firstn (S i) l = firstn i l ++ [x].
Proof.
  intros B l. induction l as [|a l IH]; intros [|i] x H; try discriminate; cbn in *; [congruence|]. rewrite (IH _ _ H). reflexivity.
Qed.

Lemma select_app : forall {B C} sel (f : nat -> B -> C) l k, select (fun i => sel (k + i)) (fun i => f (k + i)) l =
  map (fun q => f (fst q) (snd q)) (filter (fun q => sel (fst q)) (combine (seq k (length l)) l)).
Proof.
  intros B C sel f l k. unfold select.
  assert (G : forall l j, map (fun q => f (k + fst q) (snd q)) (filter (fun q => sel (k + fst q)) (combine (seq j (length l)) l)) =
     map (fun q => f (fst q) (snd q)) (filter (fun q => sel (fst q)) (combine (seq (k + j) (length l)) l))).
  { induction l0 as [|a l0 IH]; intro j; [reflexivity|]. cbn [length seq combine filter fst]. destruct (sel (k + j)); cbn [map fst snd]; rewrite IH; replace (k + S j) with (S (k + j)) by lia; reflexivity. }
  specialize (G l 0). rewrite Nat.add_0_r in G. exact G.
Qed.

(** Elements from index k on. *)
Definition sel_from {B C} (sel : nat -> bool) (f : nat -> B -> C) (l : list B) (k : nat) : list C :=
  map (fun q => f (fst q) (snd q)) (filter (fun q => sel (fst q)) (combine (seq k (length l - k)) (skipn k l))).
Lemma sel_from_0 : forall {B C} sel (f : nat -> B -> C) l, sel_from sel f l 0 = select sel f l.
Proof. intros. unfold sel_from, select. rewrite Nat.sub_0_r. reflexivity. Qed.
Lemma sel_from_end : forall {B C} sel (f : nat -> B -> C) l, sel_from sel f l (length l) = [].
Proof. intros. unfold sel_from. rewrite Nat.sub_diag. reflexivity. Qed.
Lemma skipn_cons : forall {B} (l : list B) i x, nth_error l i = Some x -> skipn i l = x :: skipn (S i) l.
Proof. intros B l. induction l as [|a l IH]; intros [|i] x H; try discriminate; cbn in *; [congruence|]. apply IH, H. Qed.
Lemma sel_from_step : forall {B C} sel (f : nat -> B -> C) l k x, nth_error l k = Some x ->
  sel_from sel f l k = (if sel k then [f k x] else []) ++ sel_from sel f l (S k).
Proof.
  intros B C sel f l k x H. unfold sel_from. rewrite (skipn_cons _ _ _ H). pose proof (nth_error_lt _ _ _ _ H).
  replace (length l - k) with (S (length l - S k)) by lia. cbn [seq combine filter fst]. destruct (sel k); reflexivity.
Qed.

Lemma select_first : forall {B C} sel (f : nat -> B -> C) l k x, nth_error l k = Some x ->
  select sel f (firstn (S k) l) = select sel f (firstn k l) ++ (if sel k then [f k x] else []).
Proof.
  intros B C sel f l k x H. rewrite (firstn_snoc _ _ _ H). unfold select. pose proof (nth_error_lt _ _ _ _ H) as L.
  rewrite app_length. cbn [length]. rewrite seq_app. assert (Lk : length (firstn k l) = k) by (rewrite firstn_length; lia). rewrite Lk.
  assert (C2 : forall (a b : list nat) (c e : list B), length a = length c -> combine (a ++ b) (c ++ e) = combine a c ++ combine b e).
  { induction a as [|y a IH]; intros b [|z c] e E; try discriminate; [reflexivity|]. cbn. rewrite IH by (cbn in E; lia). reflexivity. }
  rewrite C2 by (rewrite seq_length, Lk; reflexivity). rewrite filter_app, map_app. cbn. destruct (sel k); reflexivity.
Qed.

Lemma nth_select_all : forall {B C} (f : nat -> B -> C) l i, nth_error (select (fun _ => true) f l) i = option_map (f i) (nth_error l i).
Proof.
  intros B C f l i. unfold select. replace (filter (fun q : nat * B => true) (combine (seq 0 (length l)) l)) with (combine (seq 0 (length l)) l).
  2:{ symmetry. induction (combine (seq 0 (length l)) l) as [|a m IH]; [reflexivity|]. cbn. rewrite IH. reflexivity. }
  rewrite nth_error_map.
  assert (G : forall (l : list B) k i, nth_error (combine (seq k (length l)) l) i = option_map (fun x => (k + i, x)) (nth_error l i)).
  { clear. intro l. induction l as [|a l IH]; intros k [|i]; cbn; try reflexivity; [rewrite Nat.add_0_r; reflexivity|]. rewrite IH. destruct (nth_error l i); [|reflexivity]. cbn. rewrite Nat.add_succ_r. reflexivity. }
  rewrite G. destruct (nth_error l i); reflexivity.
Qed.
Lemma nth_error_combine : forall {B C} (l : list B) (m : list C) i x y, nth_error l i = Some x -> nth_error m i = Some y -> nth_error (combine l m) i = Some (x, y).
Proof. induction l as [|a l IH]; intros [|b m] [|i] x y H1 H2; try discriminate; cbn in *; [congruence|]. apply IH; assumption. Qed.

Section Move.
Context {A Tr : Type}.
Variable d : A -> A -> Z.
Variable c : Z.
Notation part := (part (A := A) (Tr := Tr)).
Notation draw := (draw (A := A)).

(** ** Deletion *)
Lemma delete_loop : forall (P : list (A * A)) dl, exists Q,
  for_ (length P) (del_step (length P) dl) (map fst P, map snd P) = Val (map fst Q, map snd Q) /\
  Permutation Q (select (fun i => negb (nth i dl false)) (fun _ q => q) P).
Proof.
  intros P dl.
  destruct (for_inv (fun k s => exists R, s = (map fst (firstn (length P - k) P ++ R), map snd (firstn (length P - k) P ++ R)) /\
      Permutation R (sel_from (fun i => negb (nth i dl false)) (fun _ q => q) P (length P - k)))
    (del_step (length P) dl) (length P) (map fst P, map snd P)) as (s & E & R & -> & HR).
  - exists []. rewrite Nat.sub_0_r, firstn_all, app_nil_r, sel_from_end. split; [reflexivity | constructor].
  - intros k s Hk (R & -> & HR). unfold del_step. set (i := length P - 1 - k).
    replace (length P - k) with (S i) in * by (unfold i; lia). replace (length P - S k) with i by (unfold i; lia).
    destruct (nth_error_ex _ P i ltac:(unfold i; lia)) as [x Hx].
    rewrite (firstn_snoc _ _ _ Hx). rewrite (sel_from_step _ _ _ _ _ Hx).
    assert (Li : length (firstn i P) = i) by (rewrite firstn_length; unfold i; lia).
    destruct (nth i dl false); cbn [negb app fst snd].
    + exists (map fst (firstn i P ++ rot R), map snd (firstn i P ++ rot R)). split.
      * rewrite <- app_assoc. cbn [app]. rewrite !map_app. cbn [map].
        assert (D1 : forall f : A * A -> A, drop_swap (map f (firstn i P) ++ f x :: map f R) i = Val (map f (firstn i P) ++ rot (map f R))).
        { intro f. pose proof (drop_swap_mid (map f (firstn i P)) (map f R) (f x)) as D. rewrite map_length, Li in D. exact D. }
        rewrite !D1. cbn [obind].
        rewrite !map_rot. reflexivity.
      * exists (rot R). split; [reflexivity|]. rewrite rot_perm. exact HR.
    + eexists. split; [reflexivity|]. exists (x :: R). split; [rewrite <- app_assoc; reflexivity|]. constructor. exact HR.
  - exists R. rewrite Nat.sub_diag in *. cbn [firstn app] in E. split; [exact E|]. rewrite sel_from_0 in HR. exact HR.
Qed.

(** ** Addition *)
Lemma add_loop : forall (r : nat -> bool) (P : list (A * A)) ad Q,
  for_ (length P) (add_step r (map fst P) (map snd P) ad) (map fst Q, map snd Q) =
  Val (map fst (Q ++ select (fun i => nth i ad false && r i) (fun _ q => q) P), map snd (Q ++ select (fun i => nth i ad false && r i) (fun _ q => q) P)).
Proof.
  intros r P ad Q.
  destruct (for_inv (fun k s => s = (map fst (Q ++ select (fun i => nth i ad false && r i) (fun _ q => q) (firstn k P)), map snd (Q ++ select (fun i => nth i ad false && r i) (fun _ q => q) (firstn k P))))
    (add_step r (map fst P) (map snd P) ad) (length P) (map fst Q, map snd Q)) as (s & E & ->).
  - cbn. rewrite app_nil_r. reflexivity.
  - intros k s Hk ->. destruct (nth_error_ex _ P k Hk) as [x Hx]. rewrite (select_first _ _ _ _ _ Hx). unfold add_step.
    destruct (nth k ad false); cbn [andb]; [|eexists; split; [reflexivity|]; rewrite app_nil_r; reflexivity].
    destruct (r k); [|eexists; split; [reflexivity|]; rewrite app_nil_r; reflexivity].
    rewrite !nth_error_map, Hx. cbn [option_map of_option obind fst snd]. eexists. split; [reflexivity|].
    rewrite app_assoc, !(map_app _ _ [x]). reflexivity.
  - rewrite firstn_all in E. exact E.
Qed.

(** ** Velocities and flags *)
Lemma vel_loop : forall (o : draw) sp sg (l v bp bg : list A), length v = length l -> length l <= length sp -> length l <= length sg ->
  let mp := fun i => match nth_error l i with Some x => partner d c bp (nth i sp 0) x | None => None end in
  let mg := fun i => match nth_error l i with Some x => partner d c bg (nth i sg 0) x | None => None end in
  exists s, for_ (length l) (vel_step d c o sp sg l bp bg) (VS v (repeat false (length l)) (repeat true (length bp)) (repeat true (length bg))) = Val s /\
    vv s = select (fun _ => true) (fun i q => accel o i (snd q) (fst q) (mp i) (mg i)) (combine l v) /\
    (forall i, i < length l -> nth i (del s) false = deleted o (mp i) (mg i) i) /\
    (forall j, j < length bp -> nth j (addp s) false = negb (existsb (fun i => (nth i sp 0 =? j) && is_some (mp i)) (seq 0 (length l)))) /\
    (forall j, j < length bg -> nth j (addg s) false = negb (existsb (fun i => (nth i sg 0 =? j) && is_some (mg i)) (seq 0 (length l)))).
Proof.
  intros o sp sg l v bp bg Lv Lp Lg mp mg.
  set (new := fun i => match nth_error l i, nth_error v i with Some x, Some y => Some (accel o i y x (mp i) (mg i)) | _, _ => None end).
  destruct (for_inv (fun k s =>
      length (vv s) = length l /\ length (del s) = length l /\ length (addp s) = length bp /\ length (addg s) = length bg /\
      (forall i, nth_error (vv s) i = if i <? k then new i else nth_error v i) /\
      (forall i, nth i (del s) false = (i <? k) && deleted o (mp i) (mg i) i) /\
      (forall j, j < length bp -> nth j (addp s) false = negb (existsb (fun i => (nth i sp 0 =? j) && is_some (mp i)) (seq 0 k))) /\
      (forall j, j < length bg -> nth j (addg s) false = negb (existsb (fun i => (nth i sg 0 =? j) && is_some (mg i)) (seq 0 k))))
    (vel_step d c o sp sg l bp bg) (length l) (VS v (repeat false (length l)) (repeat true (length bp)) (repeat true (length bg)))) as (s & E & L1 & L2 & L3 & L4 & Hv & Hd & Hp & Hg).
  - cbn [vv del addp addg]. rewrite !repeat_length. repeat (split; [first [reflexivity | assumption]|]). split; [|split].
    + intro i. destruct (lt_dec i (length l)); [apply nth_repeat | apply nth_overflow; rewrite repeat_length; lia].
    + intros j Hj. cbn. rewrite (nth_indep _ false true) by (rewrite repeat_length; exact Hj). apply nth_repeat.
    + intros j Hj. cbn. rewrite (nth_indep _ false true) by (rewrite repeat_length; exact Hj). apply nth_repeat.
  - intros k s Hk (L1 & L2 & L3 & L4 & Hv & Hd & Hp & Hg).
    destruct (nth_error_ex _ l k Hk) as [x Hx]. destruct (nth_error_ex _ v k ltac:(lia)) as [y Hy].
    unfold vel_step. rewrite Hv, Nat.ltb_irrefl, Hy, Hx. cbn [of_option obind].
    rewrite (nth_error_nth' sp 0) by lia. rewrite (nth_error_nth' sg 0) by lia. cbn [of_option obind].
    assert (Emp : mp k = partner d c bp (nth k sp 0) x) by (unfold mp; rewrite Hx; reflexivity).
    assert (Emg : mg k = partner d c bg (nth k sg 0) x) by (unfold mg; rewrite Hx; reflexivity).
    assert (Bp : forall b, mp k = Some b -> nth k sp 0 < length bp).
    { intros b Hb. rewrite Emp in Hb. unfold partner in Hb. destruct (nth_error bp (nth k sp 0)) eqn:E; [eapply nth_error_lt, E | discriminate]. }
    assert (Bg : forall b, mg k = Some b -> nth k sg 0 < length bg).
    { intros b Hb. rewrite Emg in Hb. unfold partner in Hb. destruct (nth_error bg (nth k sg 0)) eqn:E; [eapply nth_error_lt, E | discriminate]. }
    rewrite <- Emp, <- Emg.
    eexists. split; [reflexivity|].
    match goal with |- context [upd (vv ?s2) k _] => set (t := s2) end.
    assert (Vt : vv t = vv s) by (unfold t; destruct (mp k), (mg k); reflexivity).
    assert (Dt : length (del t) = length l /\ forall i, nth i (del t) false = (i <? S k) && deleted o (mp i) (mg i) i).
    { assert (U : forall b dl, length dl = length l -> length (if b : bool then upd dl k true else dl) = length l /\
          forall i, nth i (if b : bool then upd dl k true else dl) false = (if i =? k then b || nth i dl false else nth i dl false)).
      { intros [] dl Ld; (split; [rewrite ?upd_length; exact Ld|]); intro i; destruct (Nat.eqb_spec i k) as [->|Hn]; try reflexivity.
        - apply nth_upd_eq. lia.
        - apply nth_upd_neq. congruence. }
      assert (D0 : nth k (del s) false = false) by (rewrite Hd, Nat.ltb_irrefl; reflexivity).
      assert (G : length (del t) = length l /\ forall i, nth i (del t) false = if i =? k then deleted o (mp k) (mg k) k else nth i (del s) false).
      { unfold t, deleted. destruct (mp k), (mg k); cbn [is_some del vv addp addg].
        - destruct (U (r5 o k) (del s) L2) as [U1 U2]. split; [exact U1|]. intro i. rewrite U2. destruct (Nat.eqb_spec i k) as [->|]; [rewrite D0, !orb_false_r; reflexivity | reflexivity].
        - destruct (U (r5 o k) (del s) L2) as [U1 U2]. destruct (U (rg o k) _ U1) as [U3 U4]. split; [exact U3|]. intro i. rewrite U4, U2.
          destruct (Nat.eqb_spec i k) as [->|]; [rewrite D0, orb_false_r; apply orb_comm | reflexivity].
        - destruct (U (rp o k) (del s) L2) as [U1 U2]. split; [exact U1|]. intro i. rewrite U2. destruct (Nat.eqb_spec i k) as [->|]; [rewrite D0, !orb_false_r; reflexivity | reflexivity].
        - destruct (U (rp o k) (del s) L2) as [U1 U2]. destruct (U (rg o k) _ U1) as [U3 U4]. split; [exact U3|]. intro i. rewrite U4, U2.
          destruct (Nat.eqb_spec i k) as [->|]; [rewrite D0, orb_false_r; apply orb_comm | reflexivity]. }
      destruct G as [G1 G2]. split; [exact G1|]. intro i. rewrite G2, Hd. destruct (Nat.eqb_spec i k) as [->|Hn].
      - replace (k <? S k) with true by (symmetry; apply Nat.ltb_lt; lia). reflexivity.
      - replace (i <? S k) with (i <? k) by (destruct (Nat.ltb_spec i k), (Nat.ltb_spec i (S k)); lia || reflexivity). reflexivity. }
    assert (Ad : forall (ad : list bool) (bl : list A) (sl : list nat) (m : nat -> option A), length ad = length bl -> (forall b, m k = Some b -> nth k sl 0 < length bl) ->
        (forall j, j < length bl -> nth j ad false = negb (existsb (fun i => (nth i sl 0 =? j) && is_some (m i)) (seq 0 k))) ->
        let ad' := match m k with Some _ => upd ad (nth k sl 0) false | None => ad end in
        length ad' = length bl /\ forall j, j < length bl -> nth j ad' false = negb (existsb (fun i => (nth i sl 0 =? j) && is_some (m i)) (seq 0 (S k)))).
    { intros ad bl sl m La Hb Ha ad'. unfold ad'. destruct (m k) eqn:Em.
      - split; [rewrite upd_length; exact La|]. intros j Hj. rewrite seq_S, existsb_app. cbn [existsb Nat.add]. rewrite Em. cbn [is_some].
        destruct (Nat.eqb_spec (nth k sl 0) j) as [<-|Hn].
        + rewrite nth_upd_eq by lia. cbn. rewrite orb_true_r. reflexivity.
        + rewrite nth_upd_neq by congruence. rewrite Ha by exact Hj. cbn. rewrite orb_false_r. reflexivity.
      - split; [exact La|]. intros j Hj. rewrite seq_S, existsb_app. cbn [existsb Nat.add]. rewrite Em. cbn [is_some]. rewrite andb_false_r. cbn. rewrite orb_false_r. apply Ha, Hj. }
    destruct (Ad (addp s) bp sp mp L3 Bp Hp) as [A1 A2]. destruct (Ad (addg s) bg sg mg L4 Bg Hg) as [A3 A4]. cbv zeta in A1, A2, A3, A4.
    assert (Tp : addp t = match mp k with Some _ => upd (addp s) (nth k sp 0) false | None => addp s end) by (unfold t; destruct (mp k), (mg k); reflexivity).
    assert (Tg : addg t = match mg k with Some _ => upd (addg s) (nth k sg 0) false | None => addg s end) by (unfold t; destruct (mp k), (mg k); reflexivity).
    cbn [vv del addp addg]. clearbody t. rewrite <- Tp in A1, A2. rewrite <- Tg in A3, A4.
    split; [rewrite upd_length, Vt; exact L1|]. split; [apply Dt|]. split; [exact A1|]. split; [exact A3|]. split; [|split; [apply Dt | split; assumption]].
    intro i. rewrite Vt. destruct (Nat.eq_dec i k) as [->|Hn].
    + rewrite nth_error_upd_eq by lia. replace (k <? S k) with true by (symmetry; apply Nat.ltb_lt; lia). unfold new. rewrite Hx, Hy. reflexivity.
    + rewrite nth_error_upd_neq by congruence. rewrite Hv. replace (i <? S k) with (i <? k) by (destruct (Nat.ltb_spec i k), (Nat.ltb_spec i (S k)); lia || reflexivity). reflexivity.
  - exists s. split; [exact E|]. split; [|split; [|split; assumption]].
    + apply list_ext. intro i. rewrite Hv, nth_select_all. destruct (Nat.ltb_spec i (length l)) as [H|H].
      * unfold new. destruct (nth_error_ex _ l i H) as [x Hx]. destruct (nth_error_ex _ v i ltac:(lia)) as [y Hy]. rewrite (nth_error_combine _ _ _ _ _ Hx Hy), Hx, Hy. reflexivity.
      * replace (nth_error v i) with (@None A) by (symmetry; apply nth_error_None; lia).
        replace (nth_error (combine l v) i) with (@None (A * A)) by (symmetry; apply nth_error_None; rewrite combine_length; lia). reflexivity.
    + intros i Hi. rewrite Hd. replace (i <? length l) with true by (symmetry; apply Nat.ltb_lt; exact Hi). reflexivity.
Qed.

Lemma together_iff : forall asg l bl i j, length l <= length asg ->
  (together d c asg l bl i j <-> i < length l /\ nth i asg 0 = j /\ is_some (match nth_error l i with Some x => partner d c bl (nth i asg 0) x | None => None end) = true).
Proof.
  intros asg l bl i j La. unfold together. split.
  - intros (Hj & x & b & Hx & Hb & Hd). pose proof (nth_error_lt _ _ _ _ Hx). split; [assumption|].
    assert (E : nth i asg 0 = j) by (apply nth_error_nth, Hj). split; [exact E|]. rewrite Hx, E. unfold partner. rewrite Hb.
    destruct (Z.leb_spec c (d b x)); [lia | reflexivity].
  - intros (Hi & <- & H). split; [apply nth_error_nth'; lia|]. destruct (nth_error l i) as [x|] eqn:Hx; [|discriminate]. unfold partner in H.
    destruct (nth_error bl (nth i asg 0)) as [b|] eqn:Hb; [|discriminate]. exists x, b. destruct (Z.leb_spec c (d b x)); [discriminate | auto].
Qed.

Lemma partner_iff : forall asg l bl i, length l <= length asg -> i < length l ->
  partner_of d c asg l bl i (match nth_error l i with Some x => partner d c bl (nth i asg 0) x | None => None end).
Proof.
  intros asg l bl i La Hi. unfold partner_of. destruct (match nth_error l i with Some x => partner d c bl (nth i asg 0) x | None => None end) as [b|] eqn:E.
  - left. exists (nth i asg 0). split; [apply together_iff; [exact La|]; rewrite E; auto|].
    destruct (nth_error l i); [|discriminate]. unfold partner in E. destruct (nth_error bl (nth i asg 0)); [|discriminate]. destruct (c <=? _)%Z; [discriminate | congruence].
  - right. split; [|reflexivity]. intros j H. apply together_iff in H; [|exact La]. rewrite E in H. destruct H as (_ & _ & H). discriminate.
Qed.

Lemma combine_fst_snd : forall {B C} (l : list (B * C)), combine (map fst l) (map snd l) = l.
Proof. induction l as [|[a b] l IH]; [reflexivity|]. cbn. rewrite IH. reflexivity. Qed.
Lemma fst_combine : forall {B C} (l : list B) (m : list C), length l = length m -> map fst (combine l m) = l.
Proof. induction l as [|a l IH]; intros [|b m] E; try discriminate; [reflexivity|]. cbn. rewrite IH by (cbn in E; lia). reflexivity. Qed.
Lemma snd_combine : forall {B C} (l : list B) (m : list C), length l = length m -> map snd (combine l m) = m.
Proof. induction l as [|a l IH]; intros [|b m] E; try discriminate; [reflexivity|]. cbn. rewrite IH by (cbn in E; lia). reflexivity. Qed.

Lemma select_ext : forall {B C} (s1 s2 : nat -> bool) (f : nat -> B -> C) l, (forall i, i < length l -> s1 i = s2 i) -> select s1 f l = select s2 f l.
Proof.
  intros B C s1 s2 f l H. unfold select. f_equal. apply filter_ext_in. intros [i x] Hi. cbn. apply H. apply in_combine_l, in_seq in Hi. lia.
Qed.

(** Selecting after rewriting. *)
Lemma select_select : forall {B C} (sel : nat -> bool) (f : nat -> B -> C) l,
  select sel (fun _ q => q) (select (fun _ => true) f l) = select sel f l.
Proof.
  intros B C sel f l.
  assert (G : forall (l : list B) k, map (fun q : nat * C => snd q) (filter (fun q => sel (fst q)) (combine (seq k (length l)) (map (fun q => f (fst q) (snd q)) (combine (seq k (length l)) l)))) =
    map (fun q => f (fst q) (snd q)) (filter (fun q => sel (fst q)) (combine (seq k (length l)) l))).
  { clear. intro l. induction l as [|a l IH]; intro k; [reflexivity|]. cbn [length seq combine map filter fst snd]. destruct (sel k); cbn [map fst snd]; rewrite IH; reflexivity. }
  unfold select at 2.
  assert (F : filter (fun _ : nat * B => true) (combine (seq 0 (length l)) l) = combine (seq 0 (length l)) l).
  { induction (combine (seq 0 (length l)) l) as [|a m IH]; [reflexivity|]. cbn. rewrite IH. reflexivity. }
  rewrite F. unfold select. rewrite map_length, combine_length, seq_length, Nat.min_id. apply G.
Qed.

(** What updateLandmarkVelocity makes of the map. *)
Theorem move_map : forall (o : draw) (p g : part), length (vel p) = length (lms p) -> length (bvel p) = length (blms p) -> length (bvel g) = length (blms g) ->
  exists l v asp asg mp mg np ng,
    updateLandmarkVelocity d c o p g = Val (l, v) /\ length l = length v /\
    optimal false (Nat.max (length (lms p)) (length (blms p))) (entry d c (lms p) (blms p)) asp /\
    optimal false (Nat.max (length (lms p)) (length (blms g))) (entry d c (lms p) (blms g)) asg /\
    (forall i, i < length (lms p) -> partner_of d c asp (lms p) (blms p) i (mp i) /\ partner_of d c asg (lms p) (blms g) i (mg i)) /\
    (forall j, np j = true <-> forall i, ~ together d c asp (lms p) (blms p) i j) /\
    (forall j, ng j = true <-> forall i, ~ together d c asg (lms p) (blms g) i j) /\
    Permutation (combine l v)
      (select (fun i => negb (deleted o (mp i) (mg i) i)) (fun i q => (fst q, accel o i (snd q) (fst q) (mp i) (mg i))) (combine (lms p) (vel p)) ++
       select (fun j => np j && ap o j) (fun _ q => q) (combine (blms p) (bvel p)) ++
       select (fun j => ng j && ag o j) (fun _ q => q) (combine (blms g) (bvel g))).
Proof.
  intros o p g Lv Lb Lg.
  destruct (construct_ok d c (lms p) (blms p)) as (Cp & sp & Ep & _ & Op).
  destruct (construct_ok d c (lms p) (blms g)) as (Cg & sg & Eg & _ & Og).
  assert (Lsp : length (lms p) <= length sp). { destruct Op as [H _]. unfold assignment in H. apply Permutation_length in H. rewrite seq_length in H. lia. }
  assert (Lsg : length (lms p) <= length sg). { destruct Og as [H _]. unfold assignment in H. apply Permutation_length in H. rewrite seq_length in H. lia. }
  destruct (vel_loop o sp sg (lms p) (vel p) (blms p) (blms g) Lv Lsp Lsg) as (s & Es & Hv & Hd & Hp & Hg).
  set (mp := fun i => match nth_error (lms p) i with Some x => partner d c (blms p) (nth i sp 0) x | None => None end) in *.
  set (mg := fun i => match nth_error (lms p) i with Some x => partner d c (blms g) (nth i sg 0) x | None => None end) in *.
  set (P := select (fun _ => true) (fun i q => (fst q, accel o i (snd q) (fst q) (mp i) (mg i))) (combine (lms p) (vel p))).
  assert (LP : length P = length (lms p)).
  { unfold P, select. rewrite map_length. replace (filter _ _) with (combine (seq 0 (length (combine (lms p) (vel p)))) (combine (lms p) (vel p))).
    - rewrite !combine_length, seq_length. lia.
    - generalize (combine (seq 0 (length (combine (lms p) (vel p)))) (combine (lms p) (vel p))). induction l as [|a m IH]; [reflexivity|]. cbn. rewrite <- IH. reflexivity. }
  assert (P1 : map fst P = lms p).
  { apply list_ext. intro i. rewrite nth_error_map. unfold P. rewrite nth_select_all. rewrite <- (fst_combine (lms p) (vel p)) at 2 by congruence. rewrite nth_error_map. destruct (nth_error (combine (lms p) (vel p)) i); reflexivity. }
  assert (P2 : map snd P = vv s).
  { rewrite Hv. apply list_ext. intro i. rewrite nth_error_map. unfold P. rewrite !nth_select_all. destruct (nth_error (combine (lms p) (vel p)) i); reflexivity. }
  destruct (delete_loop P (del s)) as (Q & EQ & HQ). rewrite LP, P1, P2 in EQ.
  set (Bp := combine (blms p) (bvel p)). set (Bg := combine (blms g) (bvel g)).
  assert (LBp : length Bp = length (blms p)) by (unfold Bp; rewrite combine_length; lia).
  assert (LBg : length Bg = length (blms g)) by (unfold Bg; rewrite combine_length; lia).
  pose proof (add_loop (ap o) Bp (addp s) Q) as EA. rewrite LBp in EA. unfold Bp in EA at 1 2. rewrite fst_combine, snd_combine in EA by congruence.
  set (Q1 := Q ++ select (fun i => nth i (addp s) false && ap o i) (fun _ q => q) Bp) in *.
  pose proof (add_loop (ag o) Bg (addg s) Q1) as EB. rewrite LBg in EB. unfold Bg in EB at 1 2. rewrite fst_combine, snd_combine in EB by congruence.
  set (Q2 := Q1 ++ select (fun i => nth i (addg s) false && ag o i) (fun _ q => q) Bg) in *.
  set (npj := fun (sl : list nat) (m : nat -> option A) j => negb (existsb (fun i => (nth i sl 0 =? j) && is_some (m i)) (seq 0 (length (lms p))))).
  exists (map fst Q2), (map snd Q2), sp, sg, mp, mg, (npj sp mp), (npj sg mg).
  assert (NP : forall sl bl j, length (lms p) <= length sl ->
     (npj sl (fun i => match nth_error (lms p) i with Some x => partner d c bl (nth i sl 0) x | None => None end) j = true <-> forall i, ~ together d c sl (lms p) bl i j)).
  { intros sl bl j Ls. unfold npj. rewrite negb_true_iff. split.
    - intros H i Ht. apply together_iff in Ht; [|exact Ls]. destruct Ht as (Hi & E & Hs).
      assert (C : existsb (fun i => (nth i sl 0 =? j) && is_some (match nth_error (lms p) i with Some x => partner d c bl (nth i sl 0) x | None => None end)) (seq 0 (length (lms p))) = true); [|congruence].
      apply existsb_exists. exists i. split; [apply in_seq; lia|]. rewrite Hs, E, Nat.eqb_refl. reflexivity.
    - intro H. destruct (existsb _ _) eqn:E; [|reflexivity]. apply existsb_exists in E. destruct E as (i & Hi & E). apply andb_true_iff in E. destruct E as [E1 E2].
      exfalso. apply (H i). apply together_iff; [exact Ls|]. apply in_seq in Hi. apply Nat.eqb_eq in E1. split; [lia|]. split; [exact E1 | exact E2]. }
  split.
  { unfold updateLandmarkVelocity. rewrite Ep, Eg. cbn [obind osoln]. rewrite Es. cbn [obind]. rewrite EQ. cbn [obind]. rewrite EA. cbn [obind]. exact EB. }
  split; [rewrite !map_length; reflexivity|]. split; [exact Op|]. split; [exact Og|].
  split; [intros i Hi; split; apply partner_iff; assumption|].
  split; [intro j; apply NP, Lsp|]. split; [intro j; apply NP, Lsg|].
  rewrite combine_fst_snd. unfold Q2, Q1. rewrite <- app_assoc.
  apply Permutation_app; [|apply Permutation_app].
  - rewrite HQ. unfold P. rewrite (select_ext _ (fun i => negb (deleted o (mp i) (mg i) i))).
    + rewrite select_select. reflexivity.
    + intros i Hi. fold P in Hi. rewrite LP in Hi. rewrite Hd by exact Hi. reflexivity.
  - rewrite (select_ext _ (fun j => npj sp mp j && ap o j)); [reflexivity|]. intros j Hj. rewrite Hp by lia. reflexivity.
  - rewrite (select_ext _ (fun j => npj sg mg j && ag o j)); [reflexivity|]. intros j Hj. rewrite Hg by lia. reflexivity.
Qed.
End Move.
