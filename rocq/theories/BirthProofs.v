(** Proofs about addBirthGaussians. *)
From Coq Require Import List Bool Arith Lia.
From Verif Require Import Base ListUtil Loop BirthModel BirthSpec.
Import ListNotations.

Section Proofs.
Variable T : Type.
Variable near : nat -> T -> nat -> bool.
Variable corr : nat -> T -> nat -> T.
Variable inv : nat -> nat -> T.
Variables cntT chkT curT : nat.
Notation cand := (cand T).
Notation slot := (slot T).
Notation scan := (scan T cntT chkT curT).
Notation use_all := (use_all T near corr inv cntT curT).
Notation use_measurement := (use_measurement T near corr inv cntT curT).
Notation birth_one := (birth_one T near corr inv cntT chkT curT).
Notation checked := (checked T).

Definition out (fov : nat) (c : cand) : bool := (cntT <=? nsup T c) || (chkT <? S (nchk T c)) || (fov <=? curT).
Definition born (fov : nat) (c : cand) : bool := (cntT <=? nsup T c) || (fov <=? curT).

Lemma scan_ok : forall fov l, (forall b c, l = b ++ [c] -> out fov c = false) ->
  scan fov l = Val (map checked (filter (fun c => negb (out fov c)) l), map (clm T) (filter (born fov) l)).
Proof using T cntT chkT curT. clear near corr inv.
  intros fov. induction l as [|c r IH]; intros H; [reflexivity|]. cbn [BirthModel.scan].
  assert (Hr : forall b x, r = b ++ [x] -> out fov x = false) by (intros b x ->; apply (H (c :: b)); reflexivity).
  change (leaves T cntT chkT curT fov (checked c)) with (out fov c).
  change (matures T cntT curT fov (checked c)) with (born fov c).
  destruct (out fov c) eqn:E.
  - destruct r as [|c2 r2]; [rewrite (H [] c eq_refl) in E; discriminate|].
    rewrite (IH Hr). cbn [obind fst snd]. remember (c2 :: r2) as r. cbn [filter]. rewrite E. cbn [negb].
    destruct (born fov c); reflexivity.
  - rewrite (IH Hr). cbn [obind fst snd filter]. rewrite E. cbn [negb map].
    unfold born at 2. unfold out in E. destruct (cntT <=? nsup T c); [discriminate|]. cbn [orb] in E.
    destruct (fov <=? curT); [rewrite orb_true_r in E; discriminate|]. reflexivity.
Qed.

Lemma scan_ub : forall fov b c, out fov c = true -> scan fov (b ++ [c]) = UB BadIterator.
Proof using T cntT chkT curT. clear near corr inv.
  intros fov b c H. induction b as [|x b IH]; cbn [app BirthModel.scan].
  - change (leaves T cntT chkT curT fov (checked c)) with (out fov c). rewrite H. reflexivity.
  - rewrite IH. cbn [obind]. destruct (leaves T cntT chkT curT fov (checked x)); [|reflexivity].
    destruct (b ++ [c]) eqn:E; [destruct b; discriminate|reflexivity].
Qed.

Lemma out_spec : forall fov c, out fov c = true <-> cntT <= nsup T c \/ chkT < S (nchk T c) \/ fov <= curT.
Proof using T cntT chkT curT. clear near corr inv. intros fov c. unfold out. rewrite !orb_true_iff, !Nat.leb_le, Nat.ltb_lt. tauto. Qed.

Theorem scan_exact : forall fov l,
  ((exists b c, l = b ++ [c] /\ (cntT <= nsup T c \/ chkT < S (nchk T c) \/ fov <= curT)) -> scan fov l = UB BadIterator) /\
  (~ (exists b c, l = b ++ [c] /\ (cntT <= nsup T c \/ chkT < S (nchk T c) \/ fov <= curT)) ->
   scan fov l = Val (map (fun c => CA T (clm T c) (nsup T c) (S (nchk T c)))
                       (filter (fun c => negb ((cntT <=? nsup T c) || (chkT <? S (nchk T c)) || (fov <=? curT))) l),
                     map (clm T) (filter (fun c => (cntT <=? nsup T c) || (fov <=? curT)) l))).
Proof using T cntT chkT curT. clear near corr inv.
  intros fov l. split.
  - intros (b & c & -> & H). apply scan_ub, out_spec, H.
  - intros H. apply scan_ok. intros b c E. destruct (out fov c) eqn:Eo; [|reflexivity]. exfalso. apply H. exists b, c.
    split; [exact E|]. apply out_spec, Eo.
Qed.

(** ----- measurements ----- *)
Lemma support_some : forall i z l l', support T near corr i z l = Some l' ->
  exists b c a, first_with (fun c => near i (clm T c) z = true) l b c a /\
  l' = b ++ CA T (corr i (clm T c) z) (S (nsup T c)) (nchk T c) :: a.
Proof.
  intros i z. induction l as [|c r IH]; intros l' E; cbn [support] in E; [discriminate|].
  destruct (near i (clm T c) z) eqn:En.
  - injection E as <-. exists [], c, r. split; [|reflexivity]. split; [reflexivity|]. split; [exact En|]. intros y [].
  - destruct (support T near corr i z r) as [r'|] eqn:Er; [|discriminate]. injection E as <-.
    destruct (IH r' eq_refl) as (b & x & a & (E1 & E2 & E3) & ->). exists (c :: b), x, a. split; [|reflexivity].
    split; [rewrite E1; reflexivity|]. split; [exact E2|]. intros y [<-|Hy]; [congruence|auto].
Qed.
Lemma support_none : forall i z l, support T near corr i z l = None <-> forall c, In c l -> near i (clm T c) z <> true.
Proof.
  intros i z. induction l as [|c r IH]; cbn [support]; [split; [intros _ c []|reflexivity]|].
  destruct (near i (clm T c) z) eqn:En.
  - split; [discriminate|]. intros H. exfalso. apply (H c); [left; reflexivity|exact En].
  - destruct (support T near corr i z r) as [r'|]; cbn [option_map].
    + split; [discriminate|]. intros H. assert (Some r' = None); [|discriminate]. apply IH. intros x Hx. apply H. right. exact Hx.
    + split; [|reflexivity]. intros _ x [<-|Hx]; [congruence|]. apply IH; [reflexivity|exact Hx].
Qed.

Theorem use_one : forall i nZ fov z l tl, z < nZ ->
  (forall b c a, first_with (fun c => near i (clm T c) z = true) l b c a ->
     use_measurement i nZ fov z (l, tl) = Val (b ++ CA T (corr i (clm T c) z) (S (nsup T c)) (nchk T c) :: a, tl)) /\
  ((forall c, In c l -> near i (clm T c) z <> true) ->
     (cntT = 1 \/ fov <= curT -> use_measurement i nZ fov z (l, tl) = Val (l, tl ++ [inv i z])) /\
     (~ (cntT = 1 \/ fov <= curT) -> use_measurement i nZ fov z (l, tl) = Val (l ++ [CA T (inv i z) 1 0], tl))).
Proof.
  intros i nZ fov z l tl Hz. unfold BirthModel.use_measurement. apply Nat.ltb_lt in Hz. rewrite Hz. cbn [fst snd]. split.
  - intros b c a (-> & Hc & Hb).
    assert (E : support T near corr i z (b ++ c :: a) = Some (b ++ CA T (corr i (clm T c) z) (S (nsup T c)) (nchk T c) :: a)).
    { induction b as [|x b IH]; cbn [app support]; [rewrite Hc; reflexivity|].
      destruct (near i (clm T x) z) eqn:En; [exfalso; exact (Hb x (or_introl eq_refl) En)|].
      rewrite IH; [reflexivity|]. intros y Hy. apply Hb. right. exact Hy. }
    rewrite E. reflexivity.
  - intros Hn. rewrite (proj2 (support_none i z l) Hn).
    assert (Eq : (cntT =? 1) || (fov <=? curT) = true <-> cntT = 1 \/ fov <= curT).
    { rewrite orb_true_iff, Nat.eqb_eq, Nat.leb_le. tauto. }
    split; intros H.
    + rewrite (proj2 Eq H). reflexivity.
    + destruct ((cntT =? 1) || (fov <=? curT)); [exfalso; apply H; apply Eq; reflexivity|reflexivity].
Qed.

Lemma total_app : forall a b, total (a ++ b) = total a + total b.
Proof using. clear. intros a b. unfold total. induction a as [|x a IH]; cbn [app fold_right]; lia. Qed.

Lemma use_all_ok : forall i nZ fov zs l tl, (forall z, In z zs -> z < nZ) ->
  exists l' tl', use_all i nZ fov zs (l, tl) = Val (l', tl') /\
  total (map (nsup T) l') + length tl' = total (map (nsup T) l) + length tl + length zs /\
  (exists k, map (nchk T) l' = map (nchk T) l ++ repeat 0 k).
Proof using T near corr inv cntT curT. clear chkT.
  intros i nZ fov. induction zs as [|z zs IH]; intros l tl Hz; cbn [BirthModel.use_all].
  - exists l, tl. split; [reflexivity|]. split; [cbn; lia|]. exists 0. cbn. rewrite app_nil_r. reflexivity.
  - assert (E : exists l1 tl1, use_measurement i nZ fov z (l, tl) = Val (l1, tl1) /\
      total (map (nsup T) l1) + length tl1 = total (map (nsup T) l) + length tl + 1 /\
      exists k, map (nchk T) l1 = map (nchk T) l ++ repeat 0 k).
    { assert (Hlt := Hz z (or_introl eq_refl)).
      unfold BirthModel.use_measurement. rewrite (proj2 (Nat.ltb_lt _ _) Hlt). cbn [fst snd].
      destruct (support T near corr i z l) as [l1|] eqn:Es.
      - apply support_some in Es. destruct Es as (b & c & a & (-> & _ & _) & ->).
        do 2 eexists. split; [reflexivity|]. split.
        + rewrite !map_app, !total_app. cbn [map nsup total fold_right]. lia.
        + exists 0. cbn [repeat]. rewrite app_nil_r, !map_app. reflexivity.
      - destruct ((cntT =? 1) || (fov <=? curT)).
        + do 2 eexists. split; [reflexivity|]. split; [rewrite app_length; cbn [length]; lia|].
          exists 0. cbn [repeat]. rewrite app_nil_r. reflexivity.
        + do 2 eexists. split; [reflexivity|]. split; [rewrite map_app, total_app; cbn [map nsup total fold_right]; lia|].
          exists 1. rewrite map_app. reflexivity. }
    destruct E as (l1 & tl1 & E1 & S1 & k1 & C1). rewrite E1. cbn [obind].
    destruct (IH l1 tl1) as (l2 & tl2 & E2 & S2 & k2 & C2); [intros y Hy; apply Hz; right; exact Hy|].
    exists l2, tl2. split; [exact E2|]. split; [cbn [length]; lia|].
    exists (k1 + k2). rewrite C2, C1, <- app_assoc, repeat_app. reflexivity.
Qed.

Lemma use_all_sup : forall i nZ fov zs l tl l' tl', use_all i nZ fov zs (l, tl) = Val (l', tl') ->
  (forall c, In c l -> 1 <= nsup T c) -> forall c, In c l' -> 1 <= nsup T c.
Proof using T near corr inv cntT curT. clear chkT.
  intros i nZ fov. induction zs as [|z zs IH]; intros l tl l' tl' E H; cbn [BirthModel.use_all] in E; [injection E as <- <-; exact H|].
  unfold BirthModel.use_measurement in E. destruct (z <? nZ); [|discriminate]. cbn [fst snd] in E.
  destruct (support T near corr i z l) as [l1|] eqn:Es.
  - apply support_some in Es. destruct Es as (b & c & a & (-> & _ & _) & ->). cbn [obind] in E. apply (IH _ _ _ _ E).
    intros x Hx. apply in_app_or in Hx. destruct Hx as [Hx|[<-|Hx]]; [|cbn; lia|]; apply H; apply in_or_app; [left|right; right]; exact Hx.
  - destruct ((cntT =? 1) || (fov <=? curT)); cbn [obind] in E; apply (IH _ _ _ _ E); [exact H|].
    intros x Hx. apply in_app_or in Hx. destruct Hx as [Hx|[<-|[]]]; [auto|cbn; lia].
Qed.

(** Candidates a finished call leaves in the list. *)
Notation waiting := (waiting T cntT chkT).

Lemma scan_val : forall fov l k b, scan fov l = Val (k, b) ->
  k = map checked (filter (fun c => negb (out fov c)) l) /\ b = map (clm T) (filter (born fov) l).
Proof using T cntT chkT curT. clear near corr inv.
  intros fov l k b E. destruct (scan_exact fov l) as [E1 E2].
  assert (D : {exists b c, l = b ++ [c] /\ (cntT <= nsup T c \/ chkT < S (nchk T c) \/ fov <= curT)} +
    {~ exists b c, l = b ++ [c] /\ (cntT <= nsup T c \/ chkT < S (nchk T c) \/ fov <= curT)}).
  { destruct l as [|x l0]; [right; intros (b0 & c & H & _); destruct b0; discriminate|].
    destruct (exists_last (l := x :: l0)) as (b0 & c & Ec); [discriminate|].
    destruct (out fov c) eqn:Eo.
    - left. exists b0, c. split; [exact Ec|apply out_spec, Eo].
    - right. intros (b1 & c1 & H & Ho). rewrite Ec in H. apply app_inj_tail in H. destruct H as [_ <-].
      apply out_spec in Ho. congruence. }
  destruct D as [D|D]; [rewrite (E1 D) in E; discriminate|]. rewrite (E2 D) in E. injection E as <- <-. auto.
Qed.

Theorem birth_waiting : forall i nZ s s', birth_one i nZ s = Val s' ->
  (forall c, In c (scands T s) -> 1 <= nsup T c) ->
  sunused T s' = [] /\ forall c, In c (scands T s') -> waiting c.
Proof.
  intros i nZ s s' E H. unfold BirthModel.birth_one in E.
  destruct (use_all i nZ (sfov T s) (rev (sunused T s)) (scands T s, [])) as [[l tl]| |] eqn:Eu; [|discriminate|discriminate].
  cbn [obind fst snd] in E. destruct (scan (sfov T s) l) as [[k b]| |] eqn:Es; [|discriminate|discriminate].
  cbn [obind fst snd] in E. injection E as <-. cbn [sunused scands]. split; [reflexivity|].
  apply scan_val in Es. destruct Es as [-> _]. intros c Hc. apply in_map_iff in Hc. destruct Hc as (c0 & <- & Hc).
  apply filter_In in Hc. destruct Hc as [Hi Ho]. apply negb_true_iff in Ho.
  assert (~ (cntT <= nsup T c0 \/ chkT < S (nchk T c0) \/ sfov T s <= curT)) by (rewrite <- out_spec; congruence).
  pose proof (use_all_sup _ _ _ _ _ _ _ _ Eu H c0 Hi). unfold BirthSpec.waiting. cbn [nsup nchk BirthModel.checked]. lia.
Qed.

(** With a count threshold of 1 no candidate is ever kept. *)
Theorem birth_direct : forall i nZ s, cntT = 1 -> scands T s = [] -> (forall z, In z (sunused T s) -> z < nZ) ->
  birth_one i nZ s = Val (SL T [] [] (sfov T s) (map (inv i) (rev (sunused T s))) (sparent T s)).
Proof.
  intros i nZ s E1 E2 Hz. unfold BirthModel.birth_one. rewrite E2.
  assert (G : forall zs tl, (forall z, In z zs -> z < nZ) -> use_all i nZ (sfov T s) zs ([], tl) = Val ([], tl ++ map (inv i) zs)).
  { induction zs as [|z zs IH]; intros tl Hzs; cbn [BirthModel.use_all map]; [rewrite app_nil_r; reflexivity|].
    unfold BirthModel.use_measurement. rewrite (proj2 (Nat.ltb_lt _ _) (Hzs z (or_introl eq_refl))). cbn [fst snd support].
    rewrite (proj2 (Nat.eqb_eq cntT 1) E1). cbn [orb obind]. rewrite IH by (intros y Hy; apply Hzs; right; exact Hy).
    rewrite <- app_assoc. reflexivity. }
  rewrite G by (intros z Hin; apply Hz; apply in_rev; exact Hin). cbn [obind fst snd BirthModel.scan].
  rewrite app_nil_r. reflexivity.
Qed.

(** Without further measurements a non-empty list always ends in the bad increment. *)
Notation scans := (scans T cntT chkT curT).
Theorem scans_fail : forall n fovs l b c, l = b ++ [c] -> S chkT - nchk T c <= n -> length fovs = S n ->
  scans fovs l = UB BadIterator.
Proof using T cntT chkT curT. clear near corr inv.
  induction n as [|n IH]; intros [|f fovs] l b c El Hn Hl; try discriminate; cbn [BirthSpec.scans length] in *.
  - destruct (scan_exact f l) as [E _]. rewrite E; [reflexivity|]. exists b, c. split; [exact El|]. lia.
  - destruct (out f c) eqn:Eo.
    + subst l. rewrite scan_ub by exact Eo. reflexivity.
    + rewrite scan_ok.
      2:{ intros b1 c1 E. rewrite E in El. apply app_inj_tail in El. destruct El as [_ ->]. exact Eo. }
      cbn [obind fst]. subst l. rewrite filter_app, map_app. cbn [filter]. rewrite Eo. cbn [negb map].
      apply (IH fovs _ (map checked (filter (fun c => negb (out f c)) b)) (checked c)); [reflexivity| |lia].
      cbn [nchk BirthModel.checked]. lia.
Qed.

(** ----- copies after a resampling ----- *)
Notation inherit := (inherit T).
Notation addBirth := (addBirthGaussians T near corr inv cntT chkT curT).
Notation birth_step := (birth_step T near corr inv cntT chkT curT).

Lemma loop_val : forall {X} (f : nat -> X -> outcome X) (I : nat -> X -> Prop) n s s', for_ n f s = Val s' -> I 0 s ->
  (forall k t t', k < n -> I k t -> f k t = Val t' -> I (S k) t') -> I n s'.
Proof.
  intros X f I n s s' E H0 Hs. unfold for_ in E.
  assert (G : forall d k t, k + d = n -> I k t -> for_from f k d t = Val s' -> I n s').
  { induction d as [|d IH]; intros k t Ek Hk Ef; cbn [for_from] in Ef.
    - injection Ef as <-. replace n with k by lia. exact Hk.
    - destruct (f k t) as [t'| |] eqn:Et; try discriminate. cbn [obind] in Ef.
      apply (IH (S k) t'); [lia| |exact Ef]. apply (Hs k t t'); auto. lia. }
  apply (G n 0 s); auto.
Qed.

Theorem birth_copies : forall res nZ ss ss', addBirth res nZ ss = Val ss' -> length ss' = length ss /\
  forall i s, nth_error ss i = Some s -> exists s2, nth_error ss' i = Some s2 /\
  (res = false \/ sparent T s = i -> birth_one i nZ s = Val s2) /\
  (res = true -> i < sparent T s -> exists p, nth_error ss (sparent T s) = Some p /\ birth_one i nZ (inherit s p) = Val s2) /\
  (res = true -> sparent T s < i -> exists p, nth_error ss' (sparent T s) = Some p /\ sunused T p = [] /\ birth_one i nZ (inherit s p) = Val s2).
Proof.
  intros res nZ ss ss' E.
  assert (I : length ss' = length ss /\ (forall i, length ss <= i -> nth_error ss' i = nth_error ss i) /\
    forall i s, i < length ss -> nth_error ss i = Some s -> exists s2, nth_error ss' i = Some s2 /\ sunused T s2 = [] /\
    (res = false \/ sparent T s = i -> birth_one i nZ s = Val s2) /\
    (res = true -> i < sparent T s -> exists p, nth_error ss (sparent T s) = Some p /\ birth_one i nZ (inherit s p) = Val s2) /\
    (res = true -> sparent T s < i -> exists p, nth_error ss' (sparent T s) = Some p /\ sunused T p = [] /\ birth_one i nZ (inherit s p) = Val s2)).
  { unfold BirthModel.addBirthGaussians in E. revert E.
    intros E. apply (loop_val _ (fun n t => length t = length ss /\ (forall i, n <= i -> nth_error t i = nth_error ss i) /\
      forall i s, i < n -> nth_error ss i = Some s -> exists s2, nth_error t i = Some s2 /\ sunused T s2 = [] /\
      (res = false \/ sparent T s = i -> birth_one i nZ s = Val s2) /\
      (res = true -> i < sparent T s -> exists p, nth_error ss (sparent T s) = Some p /\ birth_one i nZ (inherit s p) = Val s2) /\
      (res = true -> sparent T s < i -> exists p, nth_error t (sparent T s) = Some p /\ sunused T p = [] /\ birth_one i nZ (inherit s p) = Val s2)) _ _ _ E).
    - split; [reflexivity|]. split; [reflexivity|]. intros i s Hi. lia.
    - intros k t t' Hk (L & H1 & H2) Ek. unfold BirthModel.birth_step in Ek. rewrite (H1 k (Nat.le_refl k)) in Ek.
      destruct (nth_error_ex _ ss k Hk) as (s & Es). rewrite Es in Ek.
      assert (Fin : forall s1 s2, birth_one k nZ s1 = Val s2 -> sunused T s2 = []).
      { intros s1 s2 Eb. unfold BirthModel.birth_one in Eb.
        destruct (use_all k nZ (sfov T s1) (rev (sunused T s1)) (scands T s1, [])) as [u| |]; try discriminate. cbn [obind] in Eb.
        destruct (scan (sfov T s1) (fst u)) as [v| |]; try discriminate. injection Eb as <-. reflexivity. }
      assert (K : forall s1 s2, birth_one k nZ s1 = Val s2 -> t' = upd t k s2 ->
        (res = false \/ sparent T s = k -> s1 = s) ->
        (res = true -> sparent T s <> k -> exists p, nth_error t (sparent T s) = Some p /\ s1 = inherit s p) ->
        length t' = length ss /\ (forall i, S k <= i -> nth_error t' i = nth_error ss i) /\
        forall i s, i < S k -> nth_error ss i = Some s -> exists s2, nth_error t' i = Some s2 /\ sunused T s2 = [] /\
        (res = false \/ sparent T s = i -> birth_one i nZ s = Val s2) /\
        (res = true -> i < sparent T s -> exists p, nth_error ss (sparent T s) = Some p /\ birth_one i nZ (inherit s p) = Val s2) /\
        (res = true -> sparent T s < i -> exists p, nth_error t' (sparent T s) = Some p /\ sunused T p = [] /\ birth_one i nZ (inherit s p) = Val s2)).
      { intros s1 s2 Eb -> C1 C2. split; [rewrite upd_length; exact L|]. split.
        - intros i Hi. rewrite nth_error_upd_neq by lia. apply H1. lia.
        - intros i s0 Hi E0. destruct (Nat.eq_dec i k) as [->|Hne].
          + rewrite Es in E0. injection E0 as <-. exists s2.
            split; [apply nth_error_upd_eq; lia|]. split; [exact (Fin s1 s2 Eb)|]. split; [|split].
            * intros H. rewrite <- (C1 H). exact Eb.
            * intros Hr Hlt. destruct (C2 Hr ltac:(lia)) as (p & Ep & ->). exists p. rewrite H1 in Ep by lia. auto.
            * intros Hr Hlt. destruct (C2 Hr ltac:(lia)) as (p & Ep & ->). exists p.
              rewrite nth_error_upd_neq by lia. split; [exact Ep|]. split; [|exact Eb].
              assert (Hp : sparent T s < length ss) by lia. destruct (nth_error_ex _ ss _ Hp) as (s3 & Es3).
              destruct (H2 _ s3 Hlt Es3) as (p' & Ep' & U' & _). rewrite Ep in Ep'. injection Ep' as <-. exact U'.
          + destruct (H2 i s0 ltac:(lia) E0) as (x & X1 & X2 & X3 & X4 & X5). exists x.
            rewrite nth_error_upd_neq by lia. split; [exact X1|]. split; [exact X2|]. split; [exact X3|]. split; [exact X4|].
            intros Hr Hlt. destruct (X5 Hr Hlt) as (p & P1 & P2). exists p. rewrite nth_error_upd_neq by lia. auto. }
      destruct (res && negb (sparent T s =? k)) eqn:Ec.
      + apply andb_true_iff in Ec. destruct Ec as [Er En]. apply negb_true_iff, Nat.eqb_neq in En.
        destruct (nth_error t (sparent T s)) as [p|] eqn:Ep; [|discriminate]. cbn [obind] in Ek.
        fold (inherit s p) in Ek. destruct (birth_one k nZ (inherit s p)) as [s2| |] eqn:Eb; try discriminate. injection Ek as <-.
        apply (K (inherit s p) s2 Eb eq_refl); [intros [?|?]; congruence|]. intros _ _. exists p. auto.
      + cbn [obind] in Ek. destruct (birth_one k nZ s) as [s2| |] eqn:Eb; try discriminate. injection Ek as <-.
        apply (K s s2 Eb eq_refl); [reflexivity|]. intros Hr Hn. rewrite Hr in Ec. cbn [andb] in Ec.
        apply negb_false_iff, Nat.eqb_eq in Ec. contradiction. }
  destruct I as (L & _ & I). split; [exact L|]. intros i s Es.
  destruct (I i s (nth_error_lt _ _ _ _ Es) Es) as (s2 & X1 & _ & X2). exists s2. auto.
Qed.

(** ----- measurement numbers ----- *)
Notation estep := (estep T near corr inv cntT chkT curT).
Notation erun := (erun T near corr inv cntT chkT curT).

Definition Iev (n : nat) (pending : bool) (s : filt T) : Prop :=
  length (fslots T s) = n /\ (forall x, In x (fslots T s) -> sparent T x < n) /\
  (if pending then forall x z, In x (fslots T s) -> In z (sunused T x) -> z < fz T s
   else forall x, In x (fslots T s) -> sunused T x = []).

Lemma zip_in : forall {A B C} (f : A -> B -> C) l m x, In x (zip f l m) -> exists a b, In a l /\ In b m /\ x = f a b.
Proof.
  intros A B C f. induction l as [|a l IH]; intros [|b m] x H; cbn [zip] in H; try destruct H as [].
  - exists a, b. cbn. auto.
  - destruct (IH m x H) as (a' & b' & H1 & H2 & ->). exists a', b'. cbn. auto.
Qed.
Lemma zip_length : forall {A B C} (f : A -> B -> C) l m, length l = length m -> length (zip f l m) = length l.
Proof. intros A B C f. induction l as [|a l IH]; intros [|b m] E; cbn in *; try discriminate; [reflexivity|]. rewrite IH; lia. Qed.

Lemma use_all_val : forall i nZ fov zs s, (forall z, In z zs -> z < nZ) -> exists s', use_all i nZ fov zs s = Val s'.
Proof. intros i nZ fov zs [l tl] H. destruct (use_all_ok i nZ fov zs l tl H) as (l' & tl' & E & _). eauto. Qed.

Lemma scan_no_oob : forall fov l, scan fov l <> UB OutOfBounds.
Proof using T cntT chkT curT. clear near corr inv.
  intros fov. induction l as [|c r IH]; cbn [BirthModel.scan]; [discriminate|].
  destruct (leaves T cntT chkT curT fov (checked c)).
  - destruct r; [discriminate|]. destruct (scan fov (c0 :: r)); cbn [obind]; congruence.
  - destruct (scan fov r); cbn [obind]; congruence.
Qed.

Lemma birth_no_oob : forall i nZ s, (forall z, In z (sunused T s) -> z < nZ) -> birth_one i nZ s <> UB OutOfBounds.
Proof.
  intros i nZ s H. unfold BirthModel.birth_one.
  destruct (use_all_val i nZ (sfov T s) (rev (sunused T s)) (scands T s, [])) as (u & ->).
  { intros z Hz. apply H. apply in_rev. exact Hz. }
  cbn [obind]. pose proof (scan_no_oob (sfov T s) (fst u)). destruct (scan (sfov T s) (fst u)); cbn [obind]; congruence.
Qed.

Lemma loop_err : forall {X} (f : nat -> X -> outcome X) (I : nat -> X -> Prop) n s u, I 0 s ->
  (forall k t, k < n -> I k t -> f k t <> UB u) ->
  (forall k t t', k < n -> I k t -> f k t = Val t' -> I (S k) t') -> for_ n f s <> UB u.
Proof.
  intros X f I n s u H0 Hu Hs. unfold for_.
  assert (G : forall d k t, k + d = n -> I k t -> for_from f k d t <> UB u).
  { induction d as [|d IH]; intros k t Ek Hk; cbn [for_from]; [discriminate|].
    destruct (f k t) as [t'|e|] eqn:Et; cbn [obind]; [apply IH; [lia|]; apply (Hs k t t'); auto; lia| |discriminate].
    intros E. apply (Hu k t); [lia|exact Hk|congruence]. }
  apply (G n 0 s); auto.
Qed.

Lemma birth_one_parent : forall i nZ s s2, birth_one i nZ s = Val s2 -> sparent T s2 = sparent T s /\ sunused T s2 = [].
Proof.
  intros i nZ s1 s2 Eb. unfold BirthModel.birth_one in Eb.
  destruct (use_all i nZ (sfov T s1) (rev (sunused T s1)) (scands T s1, [])) as [u| |]; try discriminate. cbn [obind] in Eb.
  destruct (scan (sfov T s1) (fst u)) as [v| |]; try discriminate. injection Eb as <-. auto.
Qed.

Lemma upd_in : forall {A} (l : list A) k a x, In x (upd l k a) -> x = a \/ In x l.
Proof.
  intros A l k a x H. apply In_nth_error in H. destruct H as (j & H).
  destruct (Nat.eq_dec j k) as [->|Hne].
  - assert (Hk := nth_error_lt _ _ _ _ H). rewrite upd_length in Hk. rewrite nth_error_upd_eq in H by exact Hk. left. congruence.
  - rewrite nth_error_upd_neq in H by congruence. right. apply nth_error_In in H. exact H.
Qed.

Lemma predict_ok : forall res nZ n ss, length ss = n -> (forall x, In x ss -> sparent T x < n) ->
  (forall x z, In x ss -> In z (sunused T x) -> z < nZ) ->
  addBirth res nZ ss <> UB OutOfBounds /\
  forall ss', addBirth res nZ ss = Val ss' -> length ss' = n /\ (forall x, In x ss' -> sparent T x < n /\ sunused T x = []).
Proof.
  intros res nZ n ss L Hp Hz.
  set (I := fun (k : nat) (t : list slot) => length t = n /\ (forall x, In x t -> sparent T x < n) /\
    (forall x z, In x t -> In z (sunused T x) -> z < nZ) /\ forall j x, j < k -> nth_error t j = Some x -> sunused T x = []).
  assert (I0 : I 0 ss) by (split; [exact L|]; split; [exact Hp|]; split; [exact Hz|]; intros j x Hj; lia).
  assert (Step : forall k t, k < length ss -> I k t -> birth_step res nZ k t <> UB OutOfBounds /\
    forall t', birth_step res nZ k t = Val t' -> I (S k) t').
  { intros k t Hk (L1 & P1 & Z1 & U1). unfold BirthModel.birth_step.
    destruct (nth_error_ex _ t k ltac:(lia)) as (s & Es). rewrite Es. assert (Hs := nth_error_In _ _ Es).
    assert (G : forall s1, sparent T s1 = sparent T s -> (forall z, In z (sunused T s1) -> z < nZ) ->
      (let* s2 := birth_one k nZ s1 in Val (upd t k s2)) <> UB OutOfBounds /\
      forall t', (let* s2 := birth_one k nZ s1 in Val (upd t k s2)) = Val t' -> I (S k) t').
    { intros s1 Ep1 Hz1. pose proof (birth_no_oob k nZ s1 Hz1) as Hb.
      destruct (birth_one k nZ s1) as [s2|e|] eqn:Eb; cbn [obind]; [|split; [congruence|discriminate]|split; discriminate].
      split; [discriminate|]. intros t' Et. injection Et as <-. apply birth_one_parent in Eb. destruct Eb as [E1 E2].
      split; [rewrite upd_length; exact L1|]. split; [|split].
      - intros x Hx. apply upd_in in Hx. destruct Hx as [->|Hx]; [rewrite E1, Ep1|]; apply P1; assumption.
      - intros x z Hx Hzx. apply upd_in in Hx. destruct Hx as [->|Hx]; [rewrite E2 in Hzx; destruct Hzx|]. apply (Z1 x z Hx Hzx).
      - intros j x Hj Ej. destruct (Nat.eq_dec j k) as [->|Hne].
        + rewrite nth_error_upd_eq in Ej by lia. injection Ej as <-. exact E2.
        + rewrite nth_error_upd_neq in Ej by lia. apply (U1 j x); [lia|exact Ej]. }
    destruct (res && negb (sparent T s =? k)).
    - destruct (nth_error_ex _ t (sparent T s)) as (p & Ep); [rewrite L1; apply P1; exact Hs|]. rewrite Ep. cbn [obind].
      apply G; [reflexivity|]. intros z Hz1. apply (Z1 p z); [exact (nth_error_In _ _ Ep)|exact Hz1].
    - cbn [obind]. apply G; [reflexivity|]. intros z Hz1. apply (Z1 s z Hs Hz1). }
  split.
  - apply (loop_err _ I); [exact I0| |]; intros; apply (Step k t); assumption.
  - intros ss' E. assert (If : I (length ss) ss') by (apply (loop_val _ I _ _ _ E I0); intros k t t' Hk Hi; apply (Step k t Hk Hi)).
    destruct If as (A & B & _ & D). split; [exact A|]. intros x Hx. split; [apply B; exact Hx|].
    apply In_nth_error in Hx. destruct Hx as (j & Ej). apply (D j x); [|exact Ej]. apply nth_error_lt in Ej. lia.
Qed.

Theorem events_no_oob : forall n es pending s, Iev n pending s -> orderly n pending es -> erun s es <> UB OutOfBounds.
Proof.
  intros n. induction es as [|e es IH]; intros pending s (L & P & U) Ho; cbn [BirthModel.erun]; [discriminate|].
  destruct e as [nz obs parents|]; cbn [orderly BirthModel.estep] in *.
  - destruct Ho as (Lo & Hz0 & Hobs & Hpar & Ho). destruct (Nat.eqb_spec nz 0) as [->|Hnz].
    + cbn [obind]. apply (IH pending); [|exact Ho]. rewrite (Hz0 eq_refl) in *. split; [exact L|]. split; [exact P|]. exact U.
    + assert (Lz : length (zip (set_obs T) (fslots T s) obs) = n) by (rewrite zip_length; lia).
      assert (Z1 : forall x z, In x (zip (set_obs T) (fslots T s) obs) -> In z (sunused T x) -> z < nz).
      { intros x z Hx Hzx. apply zip_in in Hx. destruct Hx as (a & [u f] & _ & Hb & ->). cbn in Hzx. apply (Hobs u f z Hb Hzx). }
      destruct parents as [ps|]; cbn [obind]; apply (IH true); try exact Ho; (split; [|split]); cbn [fslots fz].
      * destruct (Hpar ps eq_refl) as [Lp _]. rewrite zip_length; lia.
      * intros x Hx. apply zip_in in Hx. destruct Hx as (a & b & _ & Hb & ->). cbn. destruct (Hpar ps eq_refl) as [_ Hp]. apply Hp. exact Hb.
      * intros x z Hx Hzx. apply zip_in in Hx. destruct Hx as (a & b & Ha & _ & ->). cbn in Hzx. apply (Z1 a z Ha Hzx).
      * exact Lz.
      * intros x Hx. apply zip_in in Hx. destruct Hx as (a & b & Ha & _ & ->). cbn. apply P. exact Ha.
      * exact Z1.
  - assert (Zs : forall x z, In x (fslots T s) -> In z (sunused T x) -> z < fz T s).
    { destruct pending; [exact U|]. intros x z Hx Hz. rewrite (U x Hx) in Hz. destruct Hz. }
    destruct (predict_ok (fres T s) (fz T s) n (fslots T s) L P Zs) as [H1 H2].
    destruct (addBirth (fres T s) (fz T s) (fslots T s)) as [ss|e|]; cbn [obind]; [|congruence|discriminate].
    apply (IH false); [|exact Ho]. destruct (H2 ss eq_refl) as [A B]. split; [exact A|]. split; intros x Hx; apply (B x Hx).
Qed.

Theorem new_no_oob : forall n es res, orderly n false es -> erun (filt_new T n res) es <> UB OutOfBounds.
Proof.
  intros n es res H. apply (events_no_oob n es false); [|exact H]. unfold filt_new. split; [|split]; cbn [fslots].
  - rewrite map_length, seq_length. reflexivity.
  - intros x Hx. apply in_map_iff in Hx. destruct Hx as (i & <- & Hi). apply in_seq in Hi. cbn. lia.
  - intros x Hx. apply in_map_iff in Hx. destruct Hx as (i & <- & Hi). reflexivity.
Qed.
End Proofs.
