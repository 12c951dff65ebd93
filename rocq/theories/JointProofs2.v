(** Proofs for C175: uncoupled hypotheses, single associations and the scalar witnesses. *)
From mathcomp Require Import all_ssreflect all_algebra.
From Verif Require Import JointModel JointSpec JointProofs.
Set Implicit Arguments.
Unset Strict Implicit.
Unset Printing Implicit Defensive.
Import Order.Theory GRing.Theory Num.Theory.
Local Open Scope ring_scope.

Section Proofs.
Variable F : realFieldType.
Variables r l m : nat.

Lemma blocks0 h : blocks (fun _ => 0 : 'M[F]_m) h = 0.
Proof. by elim: h => [|a h IH] //=; rewrite IH row_mx0. Qed.

Lemma blocks_ext (f g : nat -> 'M[F]_m) h : (forall j, j \in map fst h -> f j = g j) -> blocks f h = blocks g h.
Proof.
elim: h => [|a h IH] //= E; rewrite IH ?E ?inE ?eqxx //.
by move=> j J; apply: E; rewrite inE J orbT.
Qed.

Lemma joint_ext (X Y : nat -> nat -> 'M[F]_m) (C D : nat -> 'M[F]_m) h :
  uniq (map fst h) -> (forall i, C i = D i) -> (forall i j, i <> j -> X i j = Y i j) ->
  joint X C h = joint Y D h.
Proof.
move=> U CD XY; elim: h U => [|a h IH] //= /andP[n U].
rewrite (IH U) CD (@blocks_ext (X a.1) (Y a.1)) // => j J.
by apply: XY => E; rewrite E J in n.
Qed.

Lemma uncoupled_node (X : nat -> nat -> 'M[F]_m) (C : nat -> 'M[F]_m) h :
  (node_of false X C h).2 = (node_of true (fun _ _ => 0) C h).2.
Proof.
elim: h => [|a h IH] //=; rewrite /extend /= andbF andbT IH.
case: eqP => //= _; rewrite blocks0 !mul0mx subr0 !mulmx0 !mul0mx !mulmx0 !mul0mx ?trmx0.
have Z0 : (0 : 'M[F]_1) 0 0 = 0 by rewrite mxE.
by rewrite ?mulmx0 ?mul0mx !Z0 mulr0 !addr0.
Qed.

Lemma regular_ext (X Y : nat -> nat -> 'M[F]_m) (C D : nat -> 'M[F]_m) h :
  uniq (map fst h) -> (forall i, C i = D i) -> (forall i j, i <> j -> X i j = Y i j) ->
  regular X C h -> regular Y D h.
Proof.
move=> U CD XY; elim: h U => [|a h IH] // U [u R]; split.
  by rewrite -(joint_ext U CD XY).
by apply: IH R; move: U => /= /andP[].
Qed.

Section Est.
Variable e : est F r l m.
Hypothesis s_rr : (e_rr e)^T = e_rr e.
Hypothesis s_ll : forall i, (e_ll e i i)^T = e_ll e i i.
Hypothesis s_Q : (e_Q e)^T = e_Q e.

Lemma c_current_sym i : (c_current e i)^T = c_current e i.
Proof. by rewrite /c_current !linearD /= !trmx_mul !trmxK s_rr s_ll s_Q !mulmxA. Qed.

Lemma jcbb_exact dense h : coupled e dense -> regular (w_block e dense) (c_current e) h ->
  jcbb_dist e dense h = maha (joint (w_block e dense) (c_current e) h) (stack h).
Proof. by move=> c R; rewrite /jcbb_dist c (node_exact c_current_sym R). Qed.

Lemma true_cov_uncorrelated i : uncorrelated e -> true_cov e i = c_current e i.
Proof.
move=> [a [b _]]; rewrite /true_cov /true_cross /c_current a b !mulmx0 !mul0mx.
by rewrite !addr0.
Qed.

Lemma true_cross_uncorrelated i j : uncorrelated e -> i <> j ->
  true_cross e i j = e_Hr e i *m e_rr e *m (e_Hr e j)^T.
Proof.
by move=> [a [b c]] n; rewrite /true_cross a b (c _ _ n) !mulmx0 !mul0mx !addr0.
Qed.

Lemma jcbb_certain h : uncorrelated e -> e_rr e = 0 -> uniq (map fst h) ->
  regular (true_cross e) (true_cov e) h ->
  jcbb_dist e false h = maha (joint (true_cross e) (true_cov e) h) (stack h).
Proof.
move=> u z U R; rewrite /jcbb_dist /coupled z eqxx /= uncoupled_node.
have CD i : true_cov e i = c_current e i by apply: true_cov_uncorrelated.
have XY i j : i <> j -> true_cross e i j = 0.
  by move=> n; rewrite true_cross_uncorrelated // z mulmx0 mul0mx.
rewrite (node_exact c_current_sym (regular_ext U CD XY R)) /=.
by rewrite (joint_ext U CD XY).
Qed.

Lemma w_dense i j : w_block e true i j = true_cross e i j + e_Q e.
Proof. by rewrite /w_block /true_cross !mulmxDl !addrA; congr (_ + _ + _); rewrite -!addrA; congr (_ + _); rewrite addrC. Qed.

Lemma joint_ext2 (X Y : nat -> nat -> 'M[F]_m) (C D : nat -> 'M[F]_m) h :
  (forall i, C i = D i) -> (forall i j, X i j = Y i j) -> joint X C h = joint Y D h.
Proof.
move=> CD XY; elim: h => [|a h IH] //=.
by rewrite IH CD (@blocks_ext (X a.1) (Y a.1)).
Qed.

Lemma regular_ext2 (X Y : nat -> nat -> 'M[F]_m) (C D : nat -> 'M[F]_m) h :
  (forall i, C i = D i) -> (forall i j, X i j = Y i j) -> regular X C h -> regular Y D h.
Proof.
move=> CD XY; elim: h => [|a h IH] // [u R]; split; last exact: IH.
by rewrite -(joint_ext2 _ CD XY).
Qed.

Lemma jcbb_dense h :
  let X := fun i j => true_cross e i j + e_Q e in
  let C := fun i => true_cov e i - (e_Hr e i *m e_rl e i *m (e_Hl e i)^T + e_Hl e i *m e_lr e i *m (e_Hr e i)^T) in
  regular X C h -> jcbb_dist e true h = maha (joint X C h) (stack h).
Proof.
move=> X C R.
have CD i : C i = c_current e i.
  rewrite /C /true_cov /true_cross /c_current.
  set a := (_ *m e_rr e *m _); set b := (_ *m e_rl e i *m _); set c := (_ *m e_lr e i *m _).
  set d := (_ *m e_ll e i i *m _); set q := e_Q e.
  rewrite -(addrA a b c) -(addrA a (b + c) d) (addrC (b + c) d) addrA.
  by rewrite -(addrA (a + d) (b + c) q) (addrC (b + c) q) addrA addrK.
have XY i j : X i j = w_block e true i j by rewrite w_dense.
have cp : coupled e true by [].
by rewrite (jcbb_exact cp (regular_ext2 CD XY R)) (joint_ext2 h CD XY).
Qed.

Lemma jcbb_block h : e_rr e != 0 ->
  let X := fun i (_ : nat) => e_Hr e i *m e_rr e *m (e_Hr e i)^T + e_Q e in
  uncorrelated e -> regular X (true_cov e) h -> jcbb_dist e false h = maha (joint X (true_cov e) h) (stack h).
Proof.
move=> z X u R; have CD i := true_cov_uncorrelated i u.
have cp : coupled e false by rewrite /coupled.
have XY i j : X i j = w_block e false i j by [].
by rewrite (jcbb_exact cp (regular_ext2 CD XY R)) (joint_ext2 h CD XY).
Qed.

Lemma jcbb_single a : uncorrelated e -> true_cov e a.1 \in unitmx ->
  jcbb_dist e false [:: a] = maha (true_cov e a.1) a.2.
Proof.
move=> u U; rewrite /jcbb_dist /= /extend /= true_cov_uncorrelated //.
by rewrite add0r.
Qed.
End Est.

Lemma scalar_step (x c u w : F) :
  0 + (((w%:M : 'M[F]_1)^T *m invmx (c%:M : 'M[F]_1) *m (w%:M : 'M[F]_1)) 0 0 : F) +
  ((w%:M : 'M[F]_1)^T *m (- invmx ((c%:M : 'M[F]_1) - x%:M *m c^-1%:M *m (x%:M)^T) *m x%:M *m c^-1%:M)^T *m
   invmx (invmx ((c%:M : 'M[F]_1) - x%:M *m c^-1%:M *m (x%:M)^T)) *m
   (- invmx ((c%:M : 'M[F]_1) - x%:M *m c^-1%:M *m (x%:M)^T) *m x%:M *m c^-1%:M) *m w%:M) 0 0 +
  2%:R * ((u%:M : 'M[F]_1)^T *m (- invmx ((c%:M : 'M[F]_1) - x%:M *m c^-1%:M *m (x%:M)^T) *m x%:M *m c^-1%:M) *m w%:M) 0 0 +
  ((u%:M : 'M[F]_1)^T *m invmx ((c%:M : 'M[F]_1) - x%:M *m c^-1%:M *m (x%:M)^T) *m u%:M) 0 0 =
  let n := (c - x * c^-1 * x)^-1 in
  let k := - n * x * c^-1 in
  w * c^-1 * w + w * k * n^-1 * k * w + 2%:R * (u * k * w) + u * n * u.
Proof.
have sub (a b : F) : (a%:M : 'M[F]_1) - b%:M = (a - b)%:M by rewrite [RHS]raddfB.
have opp (a : F) : - (a%:M : 'M[F]_1) = (- a)%:M by rewrite [RHS]raddfN.
have en (a : F) : (a%:M : 'M[F]_1) 0 0 = a by rewrite mxE eqxx mulr1n.
by rewrite add0r !tr_scalar_mx -!scalar_mxM !sub !invmx_scalar !opp -!scalar_mxM !tr_scalar_mx -!scalar_mxM !en.
Qed.

(** Scalar hypotheses of two associations. *)
Lemma two_scalar (x c u w : F) : 
  (node_of true (fun _ _ => x%:M : 'M[F]_1) (fun _ => c%:M) [:: (1%N, u%:M); (0%N, w%:M)]).2 =
  let n := (c - x * c^-1 * x)^-1 in
  let k := - n * x * c^-1 in
  w * c^-1 * w + w * k * n^-1 * k * w + 2%:R * (u * k * w) + u * n * u.
Proof.
rewrite /= /extend /=.
have B (M : 'M[F]_(0 + 1)) : block_mx (0 : 'M[F]_0) 0 0 M = M.
  by rewrite /block_mx col_flat_mx row_thin_mx.
rewrite col_flat_mx row_thin_mx.
have -> : block_mx (0 : 'M[F]_0) 0 0 (invmx (c%:M : 'M[F]_1)) = (c^-1)%:M.
  by rewrite -invmx_scalar; apply: (B (invmx c%:M)).
exact: scalar_step.
Qed.

Lemma schur_unit_conv p (A : 'M[F]_p) (W : 'M[F]_(m, p)) (C : 'M[F]_m) :
  A \in unitmx -> C - W *m invmx A *m W^T \in unitmx -> block_mx A W^T W C \in unitmx.
Proof.
move=> uA uS.
have E : block_mx A W^T W C *m block_mx 1%:M (- (invmx A *m W^T)) 0 1%:M =
         block_mx A 0 W (C - W *m invmx A *m W^T).
  rewrite mulmx_block !mulmx1 !mulmx0 !addr0 !mulmxN mulmxA mulmxV // mul1mx addNr.
  by rewrite mulmxA [_ + C]addrC.
have := congr1 determinant E.
rewrite det_mulmx det_ublock !det1 !mulr1 det_lblock unitmxE => ->.
by rewrite unitrM -!unitmxE uA uS.
Qed.
End Proofs.

Section Scalar.
Variable F : realFieldType.

Lemma scalar_unit (a : F) : a != 0 -> (a%:M : 'M[F]_1) \in unitmx.
Proof. by move=> n; rewrite unitmxE det_scalar1 unitfE. Qed.

Lemma scalar_first (x c w : F) : 
  joint (fun _ _ => x%:M : 'M[F]_1) (fun _ => c%:M) [:: (0%N, w%:M)] = c%:M :> 'M[F]_1.
Proof. by rewrite /= /block_mx col_flat_mx row_thin_mx. Qed.

Lemma scalar_regular (x c u w : F) : c != 0 -> c - x * c^-1 * x != 0 ->
  regular (fun _ _ => x%:M : 'M[F]_1) (fun _ => c%:M) [:: (1%N, u%:M); (0%N, w%:M)].
Proof.
move=> nc nz.
have u1 := scalar_unit nc.
have E1 := scalar_first x c w.
split; last first.
  by split=> //; rewrite E1.
have E2 : joint (fun _ _ => x%:M : 'M[F]_1) (fun _ => c%:M) [:: (1%N, u%:M); (0%N, w%:M)] =
   block_mx (c%:M : 'M[F]_1) (x%:M)^T x%:M c%:M :> 'M[F]_(1 + 1).
  by rewrite -[X in block_mx X]E1 /= row_thin_mx.
rewrite E2; apply: schur_unit_conv => //.
have sub (a b : F) : (a%:M : 'M[F]_1) - b%:M = (a - b)%:M by rewrite [RHS]raddfB.
by rewrite tr_scalar_mx invmx_scalar -!scalar_mxM sub; apply: scalar_unit.
Qed.

Lemma two_dist (x c u w : F) : c != 0 -> c - x * c^-1 * x != 0 ->
  maha (joint (fun _ _ => x%:M : 'M[F]_1) (fun _ => c%:M) [:: (1%N, u%:M); (0%N, w%:M)]) (stack [:: (1%N, u%:M); (0%N, w%:M)]) =
  let n := (c - x * c^-1 * x)^-1 in
  let k := - n * x * c^-1 in
  w * c^-1 * w + w * k * n^-1 * k * w + 2%:R * (u * k * w) + u * n * u.
Proof.
move=> nc nz; rewrite -two_scalar.
by rewrite node_exact //; [move=> i; rewrite tr_scalar_mx | apply: scalar_regular].
Qed.
End Scalar.
