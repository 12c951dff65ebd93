(** C44, C65, C66 and C67: map update of FastSLAM. *)
From Coq Require Import ZArith List Bool Arith QArith Qcanon Lia Permutation.
From Verif Require Import Base ListUtil QcLra MurtyModel MurtySpec MurtyPick BirthModel FastModel FastSpec FastProofs4 FastProofs5.
Import ListNotations.
Local Open Scope nat_scope.

(** C44: a particle for which at most one row of the association table has a competitor is never
    updated: the index array has no element and its first one is written. *)
Theorem C44_settled_partial : forall (T : Type) pdet (logl : T -> option (nat -> Z)) correct inv near corr expo prn pick big nZ pfa lim maxDiff maxN
  prior lock cntT chkT curT pruneT res i s w M, nth_error (fparts s) i = Some (w, M) ->
  Nat.max (seen_count pdet M) nZ <= S (length (settled pdet logl nZ lim M)) ->
  updateMap pdet logl correct inv near corr expo prn pick big nZ pfa lim maxDiff maxN prior lock cntT chkT curT pruneT res i s = UB OutOfBounds.
Proof. exact @update_settled. Qed.
Print Assumptions C44_settled_partial.

(** Otherwise the particle is replaced by one particle per association tried, best one first and
    in its own place, each with its share of the weight, multiplied by the likelihood of the
    pairs used, and its landmarks updated accordingly. *)
Theorem C44_update_partial : forall (T : Type) pdet (logl : T -> option (nat -> Z)) correct inv near corr expo prn pick big nZ pfa lim maxDiff maxN
  prior lock chkT curT pruneT,
  queue_contract pick -> (0 < pfa)%Qc -> (0 < prior)%Qc -> (prior < 1)%Qc -> 0 < maxN -> (0 < maxDiff)%Z ->
  forall hi res i s w M L, (lim <= hi)%Z -> nth_error (fparts s) i = Some (w, M) -> usable pdet logl nZ lim big hi M ->
  length (fcands s) = L -> length (ffov s) = L -> Forall (eq []) (fcands s) -> length (fparts s) + maxN - 1 <= L ->
  exists s' a l,
    updateMap pdet logl correct inv near corr expo prn pick big nZ pfa lim maxDiff maxN prior lock 1 chkT curT pruneT res i s = Val s' /\
    ranked pdet logl nZ lim maxDiff maxN M (a :: l) /\
    fparts s' =
      upd (fparts s) i (updated pdet logl correct inv expo prn nZ pfa lim prior lock pruneT (w / QcN (length (a :: l)))%Qc M a) ++
      rev (tl (branches pdet logl correct inv expo prn nZ pfa lim prior lock pruneT w M (a :: l))).
Proof. exact @update_one. Qed.
Print Assumptions C44_update_partial.

(** The same for a whole update: the particles afterwards are the branches of those before. *)
Theorem C44_all_particles_partial : forall (T : Type) pdet (logl : T -> option (nat -> Z)) correct inv near corr expo prn pick big nZ pfa lim maxDiff maxN
  prior lock chkT curT pruneT,
  queue_contract pick -> (0 < pfa)%Qc -> (0 < prior)%Qc -> (prior < 1)%Qc -> 0 < maxN -> (0 < maxDiff)%Z ->
  forall hi, (lim <= hi)%Z -> forall res s, 0 < nZ -> (forall w M, In (w, M) (fparts s) -> usable pdet logl nZ lim big hi M) ->
  length (fcands s) = length (ffov s) -> Forall (eq []) (fcands s) ->
  let br := branches pdet logl correct inv expo prn nZ pfa lim prior lock pruneT in
  exists s' ls,
    update_maps pdet logl correct inv near corr expo prn pick big nZ pfa lim maxDiff maxN prior lock 1 chkT curT pruneT res s = Val s' /\
    Forall2 (fun p l => ranked pdet logl nZ lim maxDiff maxN (snd p) l) (fparts s) ls /\
    Permutation (fparts s') (concat (map (fun pl => br (fst (fst pl)) (snd (fst pl)) (snd pl)) (combine (fparts s) ls))) /\
    (forall i w M l, nth_error (fparts s) i = Some (w, M) -> nth_error ls i = Some l -> nth_error (fparts s') i = hd_error (br w M l)) /\
    Forall (eq []) (fcands s').
Proof. exact @update_all. Qed.
Print Assumptions C44_all_particles_partial.

(** C65: with existence prior 1/2 (the default), the weight of a landmark is the odds of its
    posterior probability of existence, for every history of detections and misses. *)
Theorem C65_posterior_partial : forall prior lock, prior = (1 / (1 + 1))%Qc -> forall es p,
  (0 <= p)%Qc -> (p < 1)%Qc -> Forall (fun e => (0 <= sg_pd e <= 1)%Qc /\ (0 < sg_pfa e < 1)%Qc) es ->
  exists q, (0 <= q)%Qc /\ (q < 1)%Qc /\ q = fold_left (bayes_lock lock) es p /\
    fold_left (fun o e => let* w := o in exist_update (sg_pfa e) prior lock (sg_seen e) (sg_pd e) w) es (Val (p / (1 - p))%Qc)
    = Val (q / (1 - q))%Qc.
Proof. exact odds_history. Qed.
Print Assumptions C65_posterior_partial.

(** C66: the associations tried are different when every landmark in sight can be paired with
    every measurement and the two numbers differ by at most one. *)
Theorem C66_distinct_partial : forall (T : Type) pdet (logl : T -> option (nat -> Z)) correct inv near corr expo prn pick big nZ pfa lim maxDiff maxN
  prior lock chkT curT pruneT,
  queue_contract pick -> (0 < pfa)%Qc -> (0 < prior)%Qc -> (prior < 1)%Qc -> 0 < maxN -> (0 < maxDiff)%Z ->
  forall hi res i s w M L, (lim <= hi)%Z -> nth_error (fparts s) i = Some (w, M) -> usable pdet logl nZ lim big hi M ->
  length (fcands s) = L -> length (ffov s) = L -> Forall (eq []) (fcands s) -> length (fparts s) + maxN - 1 <= L ->
  (forall w t z, In (w, t) M -> in_sight pdet t = true -> z < nZ -> (lim < loglik logl lim t z)%Z) ->
  seen_count pdet M <= S nZ -> nZ <= S (seen_count pdet M) ->
  exists s' l,
    updateMap pdet logl correct inv near corr expo prn pick big nZ pfa lim maxDiff maxN prior lock 1 chkT curT pruneT res i s = Val s' /\
    ranked pdet logl nZ lim maxDiff maxN M l /\
    (forall h a, nth_error l h = Some a ->
       nth_error (fparts s') (if h =? 0 then i else length (fparts s') - h) =
         Some (updated pdet logl correct inv expo prn nZ pfa lim prior lock pruneT (w / QcN (length l))%Qc M a)) /\
    forall h h' a a', h < h' -> nth_error l h = Some a -> nth_error l h' = Some a' -> exists k, a k <> a' k.
Proof. exact @update_distinct. Qed.
Print Assumptions C66_distinct_partial.

(** C67: when the previous update resampled, candidate lists left in slots without a particle
    have no influence. *)
Theorem C67_stale_partial : forall (T : Type) pdet (logl : T -> option (nat -> Z)) correct inv near corr expo prn pick big nZ pfa lim maxDiff maxN
  prior lock cntT chkT curT pruneT i s s' t,
  fparts s = fparts s' -> length (fcands s) = length (fcands s') -> length (ffov s) = length (ffov s') ->
  (forall j, j < length (fparts s) -> nth_error (fcands s) j = nth_error (fcands s') j) ->
  updateMap pdet logl correct inv near corr expo prn pick big nZ pfa lim maxDiff maxN prior lock cntT chkT curT pruneT true i s = Val t ->
  exists t',
    updateMap pdet logl correct inv near corr expo prn pick big nZ pfa lim maxDiff maxN prior lock cntT chkT curT pruneT true i s' = Val t' /\
    fparts t = fparts t' /\ forall j, j < length (fparts t) -> nth_error (fcands t) j = nth_error (fcands t') j.
Proof. exact @stale_candidates. Qed.
Print Assumptions C67_stale_partial.

(** Then every branch, including the one in place, is processed with the candidates its parent
    had before the update. *)
Theorem C67_inherit_partial : forall (T : Type) pdet (logl : T -> option (nat -> Z)) correct inv near corr expo prn pick big nZ pfa lim maxDiff maxN
  prior lock cntT chkT curT pruneT i s t w M own, nth_error (fparts s) i = Some (w, M) -> nth_error (fcands s) i = Some own ->
  updateMap pdet logl correct inv near corr expo prn pick big nZ pfa lim maxDiff maxN prior lock cntT chkT curT pruneT true i s = Val t ->
  exists nH tab das, 0 < nH /\ length (fparts t) = length (fparts s) + nH - 1 /\
    forall h, h < nH -> exists d p' cs' fov, nth_error das h = Some d /\
      hyp_update correct inv near corr expo prn nZ pfa lim prior lock cntT chkT curT pruneT tab (visible pdet 0 M) d ((w / QcN nH)%Qc, M) own
        = Val (p', cs', fov) /\
      nth_error (fparts t) (if h =? 0 then i else length (fparts t) - h) = Some p' /\
      nth_error (fcands t) (if h =? 0 then i else length (fparts t) - h) = Some cs'.
Proof. exact @update_inherit. Qed.
Print Assumptions C67_inherit_partial.

(** ** A small world: landmarks are numbers, landmark t and measurement z have log-likelihood
    hit if t = z and cross otherwise. *)
Section World.
Variables hit cross : Z.
Definition w_pdet (t : nat) : Qc * bool := (Q2Qc (9 # 10), false).
Definition w_logl (t : nat) : option (nat -> Z) := Some (fun z => if t =? z then hit else cross).
Definition w_update (nZ maxN cntT : nat) (prior : Qc) (res : bool) :=
  updateMap w_pdet w_logl (fun z t => Some t) (fun z => 100 + z) (fun _ _ => false) (fun t _ => t) (fun x => if (x =? 0)%Z then 1%Qc else Q2Qc (1 # 8))
    (fun m => m) pick_max 1000 nZ (Q2Qc (1 # 10)) (-10) 5 maxN prior (Q2Qc (50 # 1)) cntT 10 0 100 res.
Definition w_state (cs : list (list (cand nat))) (M : list nat) : @fast nat :=
  FA [(1%Qc, map (fun t => (1%Qc, t)) M)] cs (repeat 0 (length cs)).
End World.
Definition half : Qc := Q2Qc (1 # 2).

(** C44 is false: two landmarks, each seen by exactly one measurement. *)
Theorem C44_refuted : exists M, settled w_pdet (w_logl 0 (-100)) 2 (-10) M = [(0, 0); (1, 1)] /\ seen_count w_pdet M = 2 /\
  updateMap w_pdet (w_logl 0 (-100)) (fun z t => Some t) (fun z => 100 + z) (fun _ _ => false) (fun t _ => t) (fun _ => 1%Qc)
    (fun m => m) pick_max 1000 2 (Q2Qc (1 # 10)) (-10) 5 3 half (Q2Qc (50 # 1)) 1 10 0 100 false 0
    (FA [(1%Qc, M)] (repeat [] 3) (repeat 0 3)) = UB OutOfBounds.
Proof. exists [(1%Qc, 0); (1%Qc, 1)]. vm_compute. auto. Qed.
Print Assumptions C44_refuted.

(** So it is for an empty map and one measurement: the first landmark is never created. *)
Example first_measurement : w_update 0 (-100) 1 3 1 half false 0 (w_state (repeat [] 3) []) = UB OutOfBounds.
Proof. reflexivity. Qed.

(** Two landmarks that both can be paired with either measurement, and the swapped pairing is
    within the limit: hypotheses of C44_update_partial and C66_distinct_partial hold, two
    particles result. *)
Definition show (s : outcome (@fast nat)) : outcome (list (Q * list (Q * nat)) * list (list (cand nat))) :=
  omap (fun s => (map (fun p => (this (fst p), map (fun g => (this (fst g), snd g)) (snd p))) (fparts s), fcands s)) s.
Example ambiguous : show (w_update 0 (-2) 2 3 1 half false 0 (w_state (repeat [] 3) [0; 1])) =
  Val ([((1 # 2)%Q, [((91 # 10)%Q, 0); ((91 # 10)%Q, 1)]); ((1 # 16)%Q, [((91 # 10)%Q, 0); ((91 # 10)%Q, 1)])], repeat [] 3).
Proof. vm_compute. reflexivity. Qed.
Example ambiguous_ok : usable w_pdet (w_logl 0 (-2)) 2 (-10) 1000 0 [(1%Qc, 0); (1%Qc, 1)] /\
  (forall w t z, In (w, t) [(1%Qc, 0); (1%Qc, 1)] -> in_sight w_pdet t = true -> z < 2 -> (-10 < loglik (w_logl 0 (-2)) (-10) t z)%Z).
Proof.
  split; [repeat split|].
  - cbn. unfold Qcle. cbn. discriminate.
  - cbn. unfold Qcle. cbn. discriminate.
  - intros w t z _. unfold loglik, w_logl. destruct (t =? z); lia.
  - vm_compute. lia.
  - intros w t z _ _ _. unfold loglik, w_logl. destruct (t =? z); lia.
Qed.
(** One landmark in sight, two measurements, one of them far from everything. *)
Example miss_and_birth : show (w_update 0 (-100) 3 3 1 half false 0 (w_state (repeat [] 3) [0; 7])) =
  Val ([((1 # 2)%Q, [((91 # 10)%Q, 0); ((1 # 10)%Q, 7); (1%Q, 101); (1%Q, 102)]); ((1 # 2)%Q, [((91 # 10)%Q, 0); ((1 # 10)%Q, 7); (1%Q, 101); (1%Q, 102)])], repeat [] 3).
Proof. vm_compute. reflexivity. Qed.

(** C65 is false for other priors: after one detection with prior 1/3. *)
Definition one_third : Qc := Q2Qc (1 # 3).
Theorem C65_refuted : exists e w, (0 < sg_pfa e < 1)%Qc /\ (0 <= sg_pd e <= 1)%Qc /\
  exist_update (sg_pfa e) one_third (Q2Qc (50 # 1)) (sg_seen e) (sg_pd e) (one_third / (1 - one_third))%Qc = Val w /\
  w <> (bayes one_third e / (1 - bayes one_third e))%Qc.
Proof.
  exists (Sight true (Q2Qc (9 # 10)) (Q2Qc (1 # 10))), (Q2Qc (91 # 40)). repeat split.
  - unfold Qcle. cbn. discriminate.
  - unfold Qcle. cbn. discriminate.
  - intros K. apply (f_equal this) in K. vm_compute in K. discriminate.
Qed.
Print Assumptions C65_refuted.
Example bayes_history : this (fold_left (bayes_lock (Q2Qc (50 # 1)))
  [Sight true (Q2Qc (9 # 10)) (Q2Qc (1 # 10)); Sight false (Q2Qc (9 # 10)) (Q2Qc (1 # 10)); Sight true (Q2Qc (9 # 10)) (Q2Qc (1 # 10))] half) = (8281 # 9281)%Q.
Proof. vm_compute. reflexivity. Qed.

(** C66 is false: one landmark and two measurements far from it. *)
Theorem C66_refuted : exists s', w_update 0 (-100) 2 3 1 half false 0 (w_state (repeat [] 3) [7]) = Val s' /\
  length (fparts s') = 2 /\ nth_error (fparts s') 0 = nth_error (fparts s') 1.
Proof. eexists. split; [vm_compute; reflexivity|]. split; reflexivity. Qed.
Print Assumptions C66_refuted.

(** C67 is false when the previous update did not resample: the new particle 1 has the
    candidates left over in slot 1, not those of particle 0. *)
Definition left : list (cand nat) := [CA nat 55 1 0].
Definition own : list (cand nat) := [CA nat 66 1 0].
Theorem C67_refuted : exists t t', w_update 0 (-2) 2 3 2 half false 0 (w_state [own; left; []] [0; 1]) = Val t /\
  w_update 0 (-2) 2 3 2 half false 0 (w_state [own; []; []] [0; 1]) = Val t' /\ length (fparts t) = 2 /\
  nth_error (fcands t) 1 = Some left /\ nth_error (fcands t') 1 = Some [].
Proof. do 2 eexists. split; [vm_compute; reflexivity|]. split; [vm_compute; reflexivity|]. split; [reflexivity|]. split; reflexivity. Qed.
Print Assumptions C67_refuted.
Example resampled : omap snd (show (w_update 0 (-2) 2 3 2 half true 0 (w_state [own; left; []] [0; 1]))) = Val [own; own; []].
Proof. vm_compute. reflexivity. Qed.
