(** Proofs about CostMatrix::reduce, part 1: what the loops compute. *)
From Coq Require Import ZArith List Bool Arith Lia Permutation.
From Verif Require Import Base ListUtil HungarianModel AssignSpec AssignLemmas HungarianProofs ReduceModel ReduceSpec.
Import ListNotations.
Local Open Scope Z_scope.

Lemma entries_in : forall n x y, In (x, y) (entries n) <-> (x < n)%nat /\ (y < n)%nat.
Proof.
  intros n x y. unfold entries. rewrite in_flat_map. split.
  - intros (z & Hz & H). apply in_map_iff in H. destruct H as (w & E & Hw).
    injection E as -> ->. apply in_seq in Hz, Hw. lia.
  - intros [Hx Hy]. exists x. split; [apply in_seq; lia|]. apply in_map_iff. exists y.
    split; auto. apply in_seq; lia.
Qed.

Lemma entries_nodup : forall n, NoDup (entries n).
Proof.
  intros n. unfold entries.
  assert (G : forall l : list nat, NoDup l -> NoDup (flat_map (fun x : nat => map (fun y : nat => (x, y)) (seq 0 n)) l)).
  { induction l as [|a l IH]; intros Hnd; simpl; [constructor|].
    inversion Hnd as [|? ? Hn Hnd']; subst.
    assert (Happ : forall (u v : list (nat * nat)), NoDup u -> NoDup v ->
      (forall p, In p u -> ~ In p v) -> NoDup (u ++ v)).
    { induction u as [|p u IHu]; intros v Hu Hv Hd; simpl; auto.
      inversion Hu as [|? ? Hpu Hu']; subst. constructor.
      - rewrite in_app_iff. intros [H|H]; [contradiction|]. apply (Hd p); [left; reflexivity|auto].
      - apply IHu; auto. intros q Hq. apply Hd. right; auto. }
    apply Happ; auto.
    - apply FinFun.Injective_map_NoDup; [|apply seq_NoDup]. intros u v H. now injection H.
    - intros p Hp Hq. apply in_map_iff in Hp. destruct Hp as (y & <- & _).
      apply in_flat_map in Hq. destruct Hq as (z & Hz & Hq). apply in_map_iff in Hq.
      destruct Hq as (w & E & _). injection E as -> _. contradiction. }
  apply G, seq_NoDup.
Qed.

Section Scan.
Variable C0 : mat.
Variable lim : Z.
Variable mv : bool.

Definition nl (p : nat * nat) : bool := negb (at_limit lim mv (C0 (fst p) (snd p))).

Lemma nl_beyond : forall i j, nl (i, j) = true <-> beyond lim mv (C0 i j).
Proof.
  intros. unfold nl, at_limit, beyond. simpl. destruct mv; simpl.
  - rewrite andb_false_r, andb_true_r. simpl. rewrite negb_true_iff, Z.leb_gt. tauto.
  - rewrite andb_false_r, andb_true_r. rewrite orb_false_r. rewrite negb_true_iff, Z.leb_gt. tauto.
Qed.

Lemma at_limit_clamp : forall v, (if at_limit lim mv v then lim else v) = clamp lim mv v.
Proof.
  intros. unfold at_limit, clamp. destruct mv; simpl.
  - rewrite andb_false_r, andb_true_r. simpl. destruct (Z.leb_spec v lim); lia.
  - rewrite andb_false_r, andb_true_r, orb_false_r. destruct (Z.leb_spec lim v); lia.
Qed.

Definition rowc (d : list (nat * nat)) (i : nat) : nat :=
  length (filter (fun p => Nat.eqb (fst p) i && nl p)%bool d).
Definition colc (d : list (nat * nat)) (j : nat) : nat :=
  length (filter (fun p => Nat.eqb (snd p) j && nl p)%bool d).

Lemma rowc_app : forall d p i, rowc (d ++ [p]) i =
  (rowc d i + (if Nat.eqb (fst p) i && nl p then 1 else 0))%nat.
Proof.
  intros. unfold rowc. rewrite filter_app, app_length. simpl. destruct (_ && _)%bool; simpl; lia.
Qed.
Lemma colc_app : forall d p i, colc (d ++ [p]) i =
  (colc d i + (if Nat.eqb (snd p) i && nl p then 1 else 0))%nat.
Proof.
  intros. unfold colc. rewrite filter_app, app_length. simpl. destruct (_ && _)%bool; simpl; lia.
Qed.

Lemma filter_pos : forall A (f : A -> bool) l x, In x l -> f x = true -> (0 < length (filter f l))%nat.
Proof.
  intros. assert (In x (filter f l)) by (apply filter_In; auto).
  destruct (filter f l); [contradiction|simpl; lia].
Qed.

Lemma rowc_pos : forall d i j, In (i, j) d -> nl (i, j) = true -> (0 < rowc d i)%nat.
Proof. intros. apply filter_pos with (x := (i, j)); auto. simpl. now rewrite Nat.eqb_refl. Qed.
Lemma colc_pos : forall d i j, In (i, j) d -> nl (i, j) = true -> (0 < colc d j)%nat.
Proof. intros. apply filter_pos with (x := (i, j)); auto. simpl. now rewrite Nat.eqb_refl. Qed.

(** Two members of a singleton filter coincide. *)
Lemma filter_one : forall A (f : A -> bool) l x y, length (filter f l) = 1%nat ->
  In x l -> In y l -> f x = true -> f y = true -> x = y.
Proof.
  intros A f l x y H Hx Hy Fx Fy.
  assert (Ix : In x (filter f l)) by (apply filter_In; auto).
  assert (Iy : In y (filter f l)) by (apply filter_In; auto).
  destruct (filter f l) as [|a [|b r]]; try discriminate.
  destruct Ix as [<-|[]], Iy as [<-|[]]. reflexivity.
Qed.

Lemma filter_one_intro : forall A (f : A -> bool) l x, NoDup l -> In x l -> f x = true ->
  (forall y, In y l -> f y = true -> y = x) -> length (filter f l) = 1%nat.
Proof.
  intros A f l x Hnd Hx Fx H.
  assert (Hnd' : NoDup (filter f l)) by (now apply NoDup_filter).
  assert (Ix : In x (filter f l)) by (apply filter_In; auto).
  assert (Hall : forall y, In y (filter f l) -> y = x).
  { intros y Hy. apply filter_In in Hy. now apply H. }
  destruct (filter f l) as [|a [|b r]]; [contradiction|reflexivity|].
  inversion Hnd' as [|? ? Hn _]; subst. exfalso. apply Hn.
  rewrite (Hall a), (Hall b); simpl; auto.
Qed.

Lemma forced_counts : forall n i j, forced C0 n lim mv i j <->
  In (i, j) (entries n) /\ nl (i, j) = true /\ rowc (entries n) i = 1%nat /\ colc (entries n) j = 1%nat.
Proof.
  intros n i j. rewrite entries_in. unfold forced. rewrite nl_beyond. split.
  - intros (Hi & Hj & Hb & H1 & H2). split; auto. split; auto. split.
    + apply filter_one_intro with (x := (i, j)).
      * apply entries_nodup.
      * apply entries_in; auto.
      * simpl. rewrite Nat.eqb_refl. simpl. now apply nl_beyond.
      * intros [x y] Hin Hf. apply entries_in in Hin. apply andb_true_iff in Hf. destruct Hf as [E F].
        simpl in E. apply Nat.eqb_eq in E. subst x. apply nl_beyond in F.
        destruct (Nat.eq_dec y j); [now subst|]. exfalso. apply (H1 y); tauto.
    + apply filter_one_intro with (x := (i, j)).
      * apply entries_nodup.
      * apply entries_in; auto.
      * simpl. rewrite Nat.eqb_refl. simpl. now apply nl_beyond.
      * intros [x y] Hin Hf. apply entries_in in Hin. apply andb_true_iff in Hf. destruct Hf as [E F].
        simpl in E. apply Nat.eqb_eq in E. subst y. apply nl_beyond in F.
        destruct (Nat.eq_dec x i); [now subst|]. exfalso. apply (H2 x); tauto.
  - intros ((Hi & Hj) & Hb & HR & HC). split; auto. split; auto. split; auto. split.
    + intros j' Hj' Hne Hb'.
      assert (E : (i, j') = (i, j)).
      { apply (filter_one _ _ _ _ _ HR); try (apply entries_in; auto).
        - simpl. rewrite Nat.eqb_refl. simpl. now apply nl_beyond.
        - simpl. rewrite Nat.eqb_refl. simpl. now apply nl_beyond. }
      injection E as E. contradiction.
    + intros i' Hi' Hne Hb'.
      assert (E : (i', j) = (i, j)).
      { apply (filter_one _ _ _ _ _ HC); try (apply entries_in; auto).
        - simpl. rewrite Nat.eqb_refl. simpl. now apply nl_beyond.
        - simpl. rewrite Nat.eqb_refl. simpl. now apply nl_beyond. }
      injection E as E. contradiction.
Qed.

Variable af0 ar0 : nat -> option nat.

Record sinv (d : list (nat * nat)) (s : scan) : Prop := {
  v_Cin : forall x y, In (x, y) d -> sC s x y = clamp lim mv (C0 x y);
  v_Cout : forall x y, ~ In (x, y) d -> sC s x y = C0 x y;
  v_ni : forall i, ni s i = rowc d i;
  v_nj : forall j, nj s j = colc d j;
  v_A : forall i j, In (i, j) d -> nl (i, j) = true -> rowc d i = 1%nat -> colc d j = 1%nat ->
        saf s i = Some j /\ sar s j = Some i;
  v_B : forall i j, saf s i = Some j ->
        (In (i, j) d /\ nl (i, j) = true /\ rowc d i = 1%nat) \/ af0 i = Some j;
  v_B' : forall i j, sar s j = Some i ->
        (In (i, j) d /\ nl (i, j) = true /\ colc d j = 1%nat) \/ ar0 j = Some i }.

Lemma mset_eq : forall C i j v, mset C i j v i j = v.
Proof. intros. unfold mset. now rewrite !Nat.eqb_refl. Qed.
Lemma mset_neq : forall C i j v x y, (x, y) <> (i, j) -> mset C i j v x y = C x y.
Proof.
  intros. unfold mset. destruct (Nat.eqb_spec x i), (Nat.eqb_spec y j); auto. subst. congruence.
Qed.

Lemma scan_entry_inv : forall d s p, sinv d s -> ~ In p d -> sinv (d ++ [p]) (scan_entry lim mv s p).
Proof.
  intros d s [i0 j0] V Hn. unfold scan_entry.
  rewrite (v_Cout d s V i0 j0 Hn).
  destruct (at_limit lim mv (C0 i0 j0)) eqn:EL.
  - assert (HN : nl (i0, j0) = false) by (unfold nl; simpl; now rewrite EL).
    assert (Er : forall i, rowc (d ++ [(i0, j0)]) i = rowc d i).
    { intros. rewrite rowc_app, HN, andb_false_r. lia. }
    assert (Ec : forall i, colc (d ++ [(i0, j0)]) i = colc d i).
    { intros. rewrite colc_app, HN, andb_false_r. lia. }
    split; simpl.
    + intros x y Hin. apply in_app_iff in Hin. destruct Hin as [Hin|[E|[]]].
      * rewrite mset_neq; [now apply (v_Cin d s V)|]. intros E. rewrite E in Hin. contradiction.
      * injection E as <- <-. rewrite mset_eq. rewrite <- at_limit_clamp, EL. reflexivity.
    + intros x y Hout. rewrite in_app_iff in Hout. rewrite mset_neq.
      * apply (v_Cout d s V). tauto.
      * intros E. apply Hout. right. left. auto.
    + intros. rewrite Er. apply V.
    + intros. rewrite Ec. apply V.
    + intros i j Hin Hnl. rewrite Er, Ec. apply in_app_iff in Hin. destruct Hin as [Hin|[E|[]]].
      * now apply (v_A d s V).
      * injection E as <- <-. congruence.
    + intros i j H. rewrite Er. destruct (v_B d s V i j H) as [(Q1 & Q2 & Q3)|Q]; auto.
      left. split; [apply in_app_iff; auto|auto].
    + intros i j H. rewrite Ec. destruct (v_B' d s V i j H) as [(Q1 & Q2 & Q3)|Q]; auto.
      left. split; [apply in_app_iff; auto|auto].
  - assert (HN : nl (i0, j0) = true) by (unfold nl; simpl; now rewrite EL).
    assert (Er : forall i, rowc (d ++ [(i0, j0)]) i = (rowc d i + (if Nat.eqb i0 i then 1 else 0))%nat).
    { intros. rewrite rowc_app, HN, andb_true_r. reflexivity. }
    assert (Ec : forall i, colc (d ++ [(i0, j0)]) i = (colc d i + (if Nat.eqb j0 i then 1 else 0))%nat).
    { intros. rewrite colc_app, HN, andb_true_r. reflexivity. }
    assert (Eri : rowc (d ++ [(i0, j0)]) i0 = S (rowc d i0)) by (rewrite Er, Nat.eqb_refl; lia).
    assert (Ecj : colc (d ++ [(i0, j0)]) j0 = S (colc d j0)) by (rewrite Ec, Nat.eqb_refl; lia).
    rewrite !fset_eq, (v_ni d s V), (v_nj d s V).
    assert (Hni : forall i, fset (ni s) i0 (S (rowc d i0)) i = rowc (d ++ [(i0, j0)]) i).
    { intros. rewrite Er. destruct (fset_cases _ (ni s) i0 (S (rowc d i0)) i) as [[-> ->]|[Hne ->]].
      - rewrite Nat.eqb_refl. lia.
      - rewrite (v_ni d s V). apply not_eq_sym, Nat.eqb_neq in Hne. rewrite Hne. lia. }
    assert (Hnj : forall i, fset (nj s) j0 (S (colc d j0)) i = colc (d ++ [(i0, j0)]) i).
    { intros. rewrite Ec. destruct (fset_cases _ (nj s) j0 (S (colc d j0)) i) as [[-> ->]|[Hne ->]].
      - rewrite Nat.eqb_refl. lia.
      - rewrite (v_nj d s V). apply not_eq_sym, Nat.eqb_neq in Hne. rewrite Hne. lia. }
    set (both := (Nat.eqb (S (rowc d i0)) 1 && Nat.eqb (S (colc d j0)) 1)%bool).
    (* values of the new tables *)
    set (af1 := if both then fset (saf s) i0 (Some j0) else saf s).
    set (ar1 := if both then fset (sar s) j0 (Some i0) else sar s).
    set (af2 := if Nat.ltb 1 (S (rowc d i0)) then fset af1 i0 None else af1).
    set (ar2 := if Nat.ltb 1 (S (colc d j0)) then fset ar1 j0 None else ar1).
    assert (Haf_o : forall i, i <> i0 -> af2 i = saf s i).
    { intros i Hi. unfold af2, af1. destruct (Nat.ltb 1 (S (rowc d i0))), both; rewrite ?fset_neq by auto; auto. }
    assert (Har_o : forall j, j <> j0 -> ar2 j = sar s j).
    { intros i Hi. unfold ar2, ar1. destruct (Nat.ltb 1 (S (colc d j0))), both; rewrite ?fset_neq by auto; auto. }
    assert (Haf_i : af2 i0 = if Nat.ltb 0 (rowc d i0) then None else
                    if Nat.eqb (colc d j0) 0 then Some j0 else saf s i0).
    { unfold af2, af1, both. destruct (rowc d i0); simpl.
      - destruct (colc d j0); simpl; [apply fset_eq|reflexivity].
      - apply fset_eq. }
    assert (Har_j : ar2 j0 = if Nat.ltb 0 (colc d j0) then None else
                    if Nat.eqb (rowc d i0) 0 then Some i0 else sar s j0).
    { unfold ar2, ar1, both. destruct (colc d j0); simpl.
      - destruct (rowc d i0); simpl; [apply fset_eq|reflexivity].
      - apply fset_eq. }
    clearbody af2 ar2. clear af1 ar1 both.
    split; simpl.
    + intros x y Hin. apply in_app_iff in Hin. destruct Hin as [Hin|[E|[]]].
      * now apply (v_Cin d s V).
      * injection E as <- <-. rewrite (v_Cout d s V) by auto.
        rewrite <- at_limit_clamp, EL. reflexivity.
    + intros x y Hout. rewrite in_app_iff in Hout. apply (v_Cout d s V). tauto.
    + apply Hni.
    + apply Hnj.
    + intros i j Hin Hnl HR HC. apply in_app_iff in Hin. destruct Hin as [Hin|[E|[]]].
      * assert (Hi : i <> i0).
        { intros ->. rewrite Eri in HR. assert (H := rowc_pos d i0 j Hin Hnl). lia. }
        assert (Hj : j <> j0).
        { intros ->. rewrite Ecj in HC. assert (H := colc_pos d i j0 Hin Hnl). lia. }
        rewrite Haf_o, Har_o by auto. rewrite Er in HR. rewrite Ec in HC.
        apply not_eq_sym, Nat.eqb_neq in Hi. apply not_eq_sym, Nat.eqb_neq in Hj.
        rewrite Hi in HR. rewrite Hj in HC. apply (v_A d s V); auto; lia.
      * injection E as <- <-. rewrite Haf_i, Har_j. rewrite Eri in HR. rewrite Ecj in HC.
        injection HR as HR. injection HC as HC. rewrite HR, HC. simpl. auto.
    + intros i j H. destruct (Nat.eq_dec i i0) as [->|Hi].
      * rewrite Haf_i in H. destruct (rowc d i0) eqn:ER; simpl in H; [|discriminate].
        destruct (Nat.eqb_spec (colc d j0) 0).
        -- injection H as <-. left. split; [apply in_app_iff; right; left; auto|]. split; auto.
        -- destruct (v_B d s V i0 j H) as [(Q1 & Q2 & Q3)|Q]; auto. lia.
      * rewrite Haf_o in H by auto. destruct (v_B d s V i j H) as [(Q1 & Q2 & Q3)|Q]; auto.
        left. split; [apply in_app_iff; auto|]. split; auto. rewrite Er.
        apply not_eq_sym, Nat.eqb_neq in Hi. rewrite Hi. lia.
    + intros i j H. destruct (Nat.eq_dec j j0) as [->|Hj].
      * rewrite Har_j in H. destruct (colc d j0) eqn:ER; simpl in H; [|discriminate].
        destruct (Nat.eqb_spec (rowc d i0) 0).
        -- injection H as <-. left. split; [apply in_app_iff; right; left; auto|]. split; auto.
        -- destruct (v_B' d s V i j0 H) as [(Q1 & Q2 & Q3)|Q]; auto. lia.
      * rewrite Har_o in H by auto. destruct (v_B' d s V i j H) as [(Q1 & Q2 & Q3)|Q]; auto.
        left. split; [apply in_app_iff; auto|]. split; auto. rewrite Ec.
        apply not_eq_sym, Nat.eqb_neq in Hj. rewrite Hj. lia.
Qed.

Lemma scan_inv : forall l d s, sinv d s -> NoDup (d ++ l) ->
  sinv (d ++ l) (fold_left (scan_entry lim mv) l s).
Proof.
  induction l as [|p l IH]; intros d s V Hnd; simpl.
  - now rewrite app_nil_r.
  - replace (d ++ p :: l) with ((d ++ [p]) ++ l) in * by (rewrite <- app_assoc; reflexivity).
    apply IH; auto. apply scan_entry_inv; auto.
    intros Hin. rewrite <- app_assoc in Hnd. apply NoDup_remove_2 in Hnd. apply Hnd.
    apply in_app_iff. auto.
Qed.

Lemma scan_start : sinv [] (SC C0 (fun _ => 0%nat) (fun _ => 0%nat) af0 ar0).
Proof. split; simpl; auto; contradiction. Qed.

Lemma scan_all : forall n, sinv (entries n)
  (fold_left (scan_entry lim mv) (entries n) (SC C0 (fun _ => 0%nat) (fun _ => 0%nat) af0 ar0)).
Proof. intros n. apply (scan_inv (entries n) []); [apply scan_start|apply entries_nodup]. Qed.

End Scan.

(** ** Second loop *)

Definition isnone (f : nat -> option nat) (k : nat) : bool := match f k with None => true | Some _ => false end.

Definition keep (f : nat -> option nat) (cnt : nat -> nat) (k : nat) : option nat :=
  match f k with Some j => if Nat.eqb (cnt j) 1 then Some j else None | None => None end.

Lemma sift_loop : forall s m k f r il jl,
  exists f' r', fold_left (sift s) (seq k m) (f, r, il, jl) =
    (f', r', il ++ filter (isnone (keep f (nj s))) (seq k m), jl ++ filter (isnone (keep r (ni s))) (seq k m)) /\
  (forall x, (k <= x < k + m)%nat -> f' x = keep f (nj s) x /\ r' x = keep r (ni s) x) /\
  (forall x, ~ (k <= x < k + m)%nat -> f' x = f x /\ r' x = r x).
Proof.
  intros s. induction m as [|m IH]; intros k f r il jl; simpl.
  - exists f, r. rewrite !app_nil_r. split; auto. split; auto. intros; lia.
  - set (f1 := match f k with Some j => if Nat.eqb (nj s j) 1 then f else fset f k None | None => f end).
    set (r1 := match r k with Some i => if Nat.eqb (ni s i) 1 then r else fset r k None | None => r end).
    assert (Hf : forall x, f1 x = if Nat.eqb x k then keep f (nj s) x else f x).
    { intros x. unfold f1, keep. destruct (Nat.eqb_spec x k) as [->|Hne].
      - destruct (f k) eqn:E; auto. destruct (Nat.eqb _ 1); auto. apply fset_eq.
      - destruct (f k) eqn:E; auto. destruct (Nat.eqb _ 1); auto. now rewrite fset_neq. }
    assert (Hr : forall x, r1 x = if Nat.eqb x k then keep r (ni s) x else r x).
    { intros x. unfold r1, keep. destruct (Nat.eqb_spec x k) as [->|Hne].
      - destruct (r k) eqn:E; auto. destruct (Nat.eqb _ 1); auto. apply fset_eq.
      - destruct (r k) eqn:E; auto. destruct (Nat.eqb _ 1); auto. now rewrite fset_neq. }
    assert (Hext : forall (g g1 : nat -> option nat) cnt, (forall x, g1 x = if Nat.eqb x k then keep g cnt x else g x) ->
      filter (isnone (keep g1 cnt)) (seq (S k) m) = filter (isnone (keep g cnt)) (seq (S k) m)).
    { intros g g1 cnt H. apply filter_ext_in. intros x Hx. apply in_seq in Hx.
      unfold isnone, keep. rewrite H. destruct (Nat.eqb_spec x k); [lia|reflexivity]. }
    destruct (IH (S k) f1 r1 (match f1 k with None => il ++ [k] | Some _ => il end)
                             (match r1 k with None => jl ++ [k] | Some _ => jl end))
      as (f' & r' & E & H1 & H2).
    exists f', r'. split; [|split].
    + rewrite E. rewrite (Hext f f1) by auto. rewrite (Hext r r1) by auto.
      assert (Ef : f1 k = keep f (nj s) k) by (rewrite Hf, Nat.eqb_refl; auto).
      assert (Er : r1 k = keep r (ni s) k) by (rewrite Hr, Nat.eqb_refl; auto).
      rewrite Ef, Er.
      assert (Nf : isnone (keep f (nj s)) k = match keep f (nj s) k with None => true | _ => false end) by reflexivity.
      assert (Nr : isnone (keep r (ni s)) k = match keep r (ni s) k with None => true | _ => false end) by reflexivity.
      rewrite Nf, Nr.
      destruct (keep f (nj s) k), (keep r (ni s) k); rewrite <- ?app_assoc; reflexivity.
    + intros x Hx. destruct (Nat.eq_dec x k) as [->|Hne].
      * destruct (H2 k) as [-> ->]; [lia|]. rewrite Hf, Hr, Nat.eqb_refl. auto.
      * destruct (H1 x) as [-> ->]; [lia|]. unfold keep. rewrite Hf, Hr.
        apply Nat.eqb_neq in Hne. rewrite Hne. auto.
    + intros x Hx. destruct (H2 x) as [-> ->]; [lia|]. rewrite Hf, Hr.
      destruct (Nat.eqb_spec x k); [lia|auto].
Qed.
