(** Initial map and times of RFSCeresSLAM. *)
From Coq Require Import ZArith List Bool Arith Lia.
From Verif Require Import Base ListUtil Loop PsoModel PsoSpec PsoProofs5 CeresModel CeresSpec CeresProofs2.
Import ListNotations.
Local Open Scope nat_scope.

Section Map.
Context {M L : Type}.
Variable inverse : nat -> M -> L.
Variable dflt : L.
Variable draw : nat -> bool.

Lemma map_size_count : forall (scans : list (list (M * Z))) k, map_size scans = count_known (timed k scans).
Proof.
  intros scans k. unfold map_size.
  assert (G : forall (l : list (M * Z)) s,
    fold_left (fun s zd => if ((0 <=? snd zd) && (Z.of_nat s <=? snd zd))%Z then S (Z.to_nat (snd zd)) else s) l s =
    Nat.max s (fold_right (fun x n => Nat.max (Z.to_nat (snd x + 1)) n) 0 l)).
  { induction l as [|x l IH]; intros s; cbn [fold_left fold_right]; [lia|]. rewrite IH.
    destruct (Z.leb_spec 0 (snd x)); cbn [andb]; [destruct (Z.leb_spec (Z.of_nat s) (snd x))|]; lia. }
  rewrite G. rewrite Nat.max_0_l. clear G. revert k. induction scans as [|s r IH]; intros k; [reflexivity|].
  cbn [concat timed]. unfold count_known in *. rewrite !fold_right_app. rewrite <- (IH (S k)).
  generalize (fold_right (fun (x : M * Z) n => Nat.max (Z.to_nat (snd x + 1)) n) 0 (concat r)). intros n.
  induction s as [|y s IHs]; cbn [map fold_right snd]; [reflexivity|]. rewrite IHs. reflexivity.
Qed.

Lemma nth_error_same : forall {X : Type} (l l' : list X), (forall i, nth_error l i = nth_error l' i) -> l = l'.
Proof.
  induction l as [|x l IH]; intros [|y l'] H; [reflexivity|specialize (H 0); discriminate|specialize (H 0); discriminate|].
  assert (H0 := H 0). injection H0 as ->. f_equal. apply IH. intros i. exact (H (S i)).
Qed.
Lemma nth_error_seq_0 : forall n j, j < n -> nth_error (seq 0 n) j = Some j.
Proof. intros n j H. rewrite (nth_error_nth' _ 0) by (rewrite seq_length; exact H). rewrite seq_nth by exact H. reflexivity. Qed.

(** The two loops over the scans as loops over all measurements. *)
Lemma put_all_flat : forall scans k l, put_all inverse k scans l = fold_left (fun l x => put inverse (fst (fst x)) l (snd (fst x), snd x)) (timed k scans) l.
Proof.
  induction scans as [|s r IH]; intros k l; cbn [put_all timed]; [reflexivity|]. rewrite fold_left_app, IH. f_equal.
  revert l. induction s as [|[z a] s IHs]; intros l; cbn [map fold_left fst snd]; [reflexivity|]. apply IHs.
Qed.
Lemma births_flat : forall scans k s, births inverse draw k scans s = fold_left (fun s x => birth inverse draw (fst (fst x)) s (snd (fst x), snd x)) (timed k scans) s.
Proof.
  induction scans as [|s r IH]; intros k l; cbn [births timed]; [reflexivity|]. rewrite fold_left_app, IH. f_equal.
  revert l. induction s as [|[z a] s IHs]; intros l; cbn [map fold_left fst snd]; [reflexivity|]. apply IHs.
Qed.

Definition made (p : nat * M) : L := inverse (fst p) (snd p).

Lemma put_one : forall k z a (l : list (option L)) j,
  nth_error (put inverse k l (z, a)) j = match nth_error l j with
    | Some None => if (a =? Z.of_nat j)%Z then Some (Some (inverse k z)) else Some None
    | x => x end.
Proof.
  intros k z a l j. unfold put. cbn [fst snd]. destruct (Z.leb_spec 0 a) as [Ha|Ha].
  - destruct (nth_error l (Z.to_nat a)) as [[x|]|] eqn:E.
    + destruct (nth_error l j) as [[y|]|] eqn:F; try reflexivity. destruct (Z.eqb_spec a (Z.of_nat j)); [subst; rewrite Nat2Z.id in E; congruence|reflexivity].
    + destruct (Nat.eq_dec j (Z.to_nat a)) as [->|N].
      * rewrite nth_error_upd_eq by (apply nth_error_Some; congruence). rewrite E. rewrite Z2Nat.id by lia. rewrite Z.eqb_refl. reflexivity.
      * rewrite nth_error_upd_neq by congruence. destruct (nth_error l j) as [[y|]|]; try reflexivity.
        destruct (Z.eqb_spec a (Z.of_nat j)); [lia|reflexivity].
    + destruct (nth_error l j) as [[y|]|] eqn:F; try reflexivity. destruct (Z.eqb_spec a (Z.of_nat j)); [subst; rewrite Nat2Z.id in E; congruence|reflexivity].
  - destruct (nth_error l j) as [[y|]|]; try reflexivity. destruct (Z.eqb_spec a (Z.of_nat j)); [lia|reflexivity].
Qed.

Lemma put_fold : forall (ts : list (nat * M * Z)) (l : list (option L)) j,
  nth_error (fold_left (fun l x => put inverse (fst (fst x)) l (snd (fst x), snd x)) ts l) j = match nth_error l j with
    | Some None => Some (option_map made (first_of j ts))
    | x => x end.
Proof.
  induction ts as [|[[k z] a] ts IH]; intros l j; cbn [fold_left fst snd].
  - destruct (nth_error l j) as [[x|]|]; reflexivity.
  - rewrite IH, put_one. unfold first_of. cbn [find snd]. destruct (nth_error l j) as [[x|]|]; try reflexivity.
    destruct (Z.eqb_spec a (Z.of_nat j)); reflexivity.
Qed.

Lemma births_fold : forall (ts : list (nat * M * Z)) c l,
  snd (fold_left (fun s x => birth inverse draw (fst (fst x)) s (snd (fst x), snd x)) ts (c, l)) = l ++ map made (selected draw c (unknown ts)).
Proof.
  induction ts as [|[[k z] a] ts IH]; intros c l; cbn [fold_left fst snd]; [unfold unknown; cbn; rewrite app_nil_r; reflexivity|].
  unfold birth at 2. cbn [fst snd]. unfold unknown. cbn [filter snd]. destruct (Z.eqb_spec a (-1)); cbn [map selected].
  - rewrite IH. destruct (draw c); cbn [map]; [rewrite <- app_assoc; reflexivity|reflexivity].
  - rewrite IH. reflexivity.
Qed.

Theorem initMap_exact : forall scans, let l := timed 0 scans in
  initMap inverse dflt draw scans =
  map (fun j => match first_of j l with Some (k, z) => inverse k z | None => dflt end) (seq 0 (count_known l)) ++
  map (fun p => inverse (fst p) (snd p)) (selected draw 0 (unknown l)).
Proof.
  intros scans l. unfold initMap. rewrite births_flat, births_fold. f_equal.
  rewrite put_all_flat, (map_size_count scans 0). fold l.
  set (n := count_known l).
  apply nth_error_same. intros j. rewrite !nth_error_map, put_fold.
  destruct (Nat.ltb_spec j n) as [H|H].
  - rewrite nth_error_repeat by exact H. rewrite nth_error_seq_0 by exact H. cbn [option_map]. f_equal.
    destruct (first_of j l) as [[k z]|]; reflexivity.
  - rewrite (proj2 (nth_error_None _ _)) by (rewrite repeat_length; exact H).
    rewrite (proj2 (nth_error_None _ _)) by (rewrite seq_length; exact H). reflexivity.
Qed.
End Map.

Section Times.
Context {I M : Type}.
Variable itime : I -> Z.
Variable mtime : M -> Z.
Notation mt := (fun p : M * Z => mtime (fst p)).

Theorem c_compared_right : forall us b, filled itime mt us b -> us <> [] ->
  exists ss ms, c_compared b = Val (ss, ms) /\ length ss = S (length us) /\ length ms = length us /\
  (forall k j zl, nth_error ss k = Some (j, zl) -> j = k /\ nth_error (zs b) k = Some zl /\
     forall z da, In (z, da) zl -> pose_time itime b k = Some (mtime z)) /\
  (forall i k1 k0 u dt, nth_error ms i = Some (k1, k0, u, dt) -> k1 = S i /\ k0 = i /\ nth_error us i = Some u /\
     pose_time itime b k1 = Some (itime u) /\ exists t0, pose_time itime b k0 = Some t0 /\ dt = (itime u - t0)%Z).
Proof.
  intros us b H Hne. destruct (filled_shape itime mt us b H) as (I1 & I2 & I3 & I4). unfold c_compared. rewrite I1.
  pose proof (fun k => pose_times itime us b k I1 I2) as PT.
  assert (LU : 0 < length us) by (destruct us; [congruence|cbn; lia]).
  assert (LT : length (times b) = S (length us)) by (rewrite I2; cbn; rewrite map_length; reflexivity).
  assert (Hm : forall i, i < length us -> exists u t0, c_motion b (S i) = Val (S i, i, u, (itime u - t0)%Z) /\ nth_error us i = Some u /\
     pose_time itime b (S i) = Some (itime u) /\ pose_time itime b i = Some t0).
  { intros i Hi. destruct (nth_error us i) as [u|] eqn:Eu; [|apply nth_error_None in Eu; lia].
    destruct (nth_error (times b) i) as [t0|] eqn:Et; [|apply nth_error_None in Et; lia].
    assert (Es : nth_error (times b) (S i) = Some (itime u)) by (rewrite I2; cbn [nth_error]; rewrite nth_error_map, Eu; reflexivity).
    exists u, t0. unfold c_motion. rewrite I1. replace (S i - 1) with i by lia. rewrite Es, Et, Eu. cbn [of_option obind].
    unfold guard. destruct (Nat.ltb_spec (S i) (S (length us))); [|lia]. rewrite !PT. auto. }
  destruct (nth_error (zs b) 0) as [z0|] eqn:E0; [|apply nth_error_None in E0; lia]. cbn [of_option obind].
  destruct (Hm 0 LU) as (u0 & t00 & M1 & M2 & M3 & M4). rewrite M1. cbn [obind].
  replace (S (length us) - 2) with (length us - 1) by lia. replace (S (length us) - 1) with (length us) by lia.
  destruct (for_inv (fun n ms => length ms = S n /\ forall i k1 k0 u dt, nth_error ms i = Some (k1, k0, u, dt) -> k1 = S i /\ k0 = i /\ nth_error us i = Some u /\
     pose_time itime b k1 = Some (itime u) /\ exists t0, pose_time itime b k0 = Some t0 /\ dt = (itime u - t0)%Z)
     (fun i acc => let* m := c_motion b (i + 2) in Val (acc ++ [m])) (length us - 1) [(1, 0, u0, (itime u0 - t00)%Z)]) as (ms & Em & Lm & Pm).
  - split; [reflexivity|]. intros [|i] k1 k0 u dt E; cbn in E; [injection E as <- <- <- <-; repeat split; eauto|destruct i; discriminate].
  - intros k acc Hk (La & Pa). destruct (Hm (S k)) as (u & t0 & N1 & N2 & N3 & N4); [lia|].
    replace (k + 2) with (S (S k)) by lia. rewrite N1. cbn [obind]. eexists. split; [reflexivity|]. split; [rewrite app_length; cbn; lia|].
    intros i k1 k0 u' dt E. destruct (Nat.ltb_spec i (length acc)) as [Hi|Hi].
    + rewrite nth_error_app1 in E by exact Hi. apply Pa. exact E.
    + rewrite nth_error_app2 in E by exact Hi. destruct (i - length acc) as [|q] eqn:Eq; cbn in E; [|destruct q; discriminate].
      injection E as <- <- <- <-. assert (i = S k) by lia. subst i. repeat split; eauto.
  - rewrite Em. cbn [obind].
    destruct (for_inv (fun n ss => length ss = S n /\ forall k j zl, nth_error ss k = Some (j, zl) -> j = k /\ nth_error (zs b) k = Some zl)
     (fun i acc => let* z := of_option OutOfBounds (nth_error (zs b) (i + 1)) in Val (acc ++ [(i + 1, z)])) (length us) [(0, z0)]) as (ss & Es & Ls & Ps).
    + split; [reflexivity|]. intros [|k] j zl E; cbn in E; [injection E as <- <-; auto|destruct k; discriminate].
    + intros k acc Hk (La & Pa). destruct (nth_error (zs b) (k + 1)) as [z|] eqn:Ez; [|apply nth_error_None in Ez; lia].
      cbn [of_option obind]. eexists. split; [reflexivity|]. split; [rewrite app_length; cbn; lia|].
      intros i j zl E. destruct (Nat.ltb_spec i (length acc)) as [Hi|Hi].
      * rewrite nth_error_app1 in E by exact Hi. apply Pa. exact E.
      * rewrite nth_error_app2 in E by exact Hi. destruct (i - length acc) as [|q] eqn:Eq; cbn in E; [|destruct q; discriminate].
        injection E as <- <-. assert (i = k + 1) by lia. subst i. auto.
    + rewrite Es. cbn [obind]. exists ss, ms. split; [reflexivity|]. split; [exact Ls|]. split; [lia|]. split; [|exact Pm].
      intros k j zl E. destruct (Ps k j zl E) as (A1 & A2). split; [exact A1|]. split; [exact A2|].
      intros z da Hz. rewrite PT. exact (I4 k zl (z, da) A2 Hz).
Qed.
End Times.
