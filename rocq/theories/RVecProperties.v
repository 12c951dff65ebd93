(** RandomVec: C29 (caches never stale) and C30 (likelihood normalisation). *)
From Coq Require Import ZArith List Bool.
From Verif Require Import Base ListUtil RVecModel RVecSpec RVecProofs.
Import ListNotations.

(** One-dimensional integers standing for the matrix algebra. *)
Definition alg1 : algebra := ALG Z Z Z Z (Z * Z) 0%Z (fun s => (1000 / s)%Z) (fun s => s) Z.sqrt
  (fun x t m => ((t - x) * (t - x) * m)%Z) (fun x l n => (x + l * n)%Z) (fun d => (6 * d)%Z) (fun q f => (q, f)).

(** C29: inverse, determinant, Cholesky factor, Mahalanobis distance and samples are those
    of the current mean and covariance, whatever was called before. *)
Theorem C29_caches : forall (A : algebra) (l : list (op A)) vals, values l [] = Some vals ->
  exists outs, exec_all l [] = Some outs /\ length outs = length vals /\
  forall k o, nth_error l k = Some o -> is_likelihood o = false -> nth_error outs k = nth_error vals k.
Proof. exact caches_ok. Qed.
Print Assumptions C29_caches.

Definition prog29 : list (op alg1) :=
  [@New alg1 1%Z 4%Z; @GetInv alg1 0; @GetDet alg1 0; @GetChol alg1 0; @SetCov alg1 0 25%Z; @GetInv alg1 0; @Copy alg1 0;
   @Sample alg1 1 3%Z; @Mahal alg1 1 20%Z; @Assign alg1 0 1; @SetCov alg1 1 100%Z; @GetChol alg1 0; @GetDet alg1 1].
Example C29_caches_ex : exists vals, values prog29 [] = Some vals /\ exec_all prog29 [] = Some vals /\
  nth_error vals 3 = Some (@SMat alg1 (Some 2%Z)) /\ nth_error vals 5 = Some (@SMat alg1 (Some 40%Z)) /\
  nth_error vals 8 = Some (@SNum alg1 (Some 640%Z)) /\ nth_error vals 12 = Some (@SNum alg1 (Some 100%Z)).
Proof. eexists. repeat split; vm_compute; reflexivity. Qed.

(** C30, the part that holds: the likelihood is normalised with the current covariance
    for objects that, since the covariance was last set, have neither been asked for the
    determinant before their first likelihood nor been assigned from an object
    with a computed determinant.  Missing: those objects (see the refutations). *)
Theorem C30_tracked_partial : forall (A : algebra) (l : list (op A)) vals, values l [] = Some vals ->
  exists outs, exec_all l [] = Some outs /\
  forall k, nth_error (trusted l []) k = Some true -> nth_error outs k = nth_error vals k.
Proof. exact likelihood_ok. Qed.
Print Assumptions C30_tracked_partial.

Definition prog30 : list (op alg1) :=
  [@New alg1 1%Z 4%Z; @Likelihood alg1 0 2%Z; @GetDet alg1 0; @Likelihood alg1 0 3%Z; @SetCov alg1 0 25%Z;
   @Likelihood alg1 0 3%Z; @Copy alg1 0; @Likelihood alg1 1 0%Z].
Example C30_tracked_ex : trusted prog30 [] = [false; true; false; true; false; true; false; true] /\
  exists vals, values prog30 [] = Some vals /\ exec_all prog30 [] = Some vals /\
  nth_error vals 3 = Some (@SLik alg1 (Some (1000, 24)%Z)) /\ nth_error vals 5 = Some (@SLik alg1 (Some (160, 150)%Z)).
Proof. split; [reflexivity|]. eexists. repeat split; vm_compute; reflexivity. Qed.

(** C30 is false in general: asking for the determinant first leaves the factor uninitialised. *)
Theorem C30_refuted : exists (A : algebra) (l : list (op A)) outs vals k,
  exec_all l [] = Some outs /\ values l [] = Some vals /\
  nth_error outs k = Some (SLik None) /\ exists v, nth_error vals k = Some (SLik (Some v)).
Proof.
  exists alg1, [@New alg1 1%Z 4%Z; @GetDet alg1 0; @Likelihood alg1 0 2%Z].
  eexists. eexists. exists 2. repeat split; try (vm_compute; reflexivity). exists (250, 24)%Z. vm_compute. reflexivity.
Qed.
Print Assumptions C30_refuted.

(** C30 is also false after an assignment: the factor of the old covariance stays. *)
Theorem C30_assign_refuted : exists (A : algebra) (l : list (op A)) outs vals k a b,
  exec_all l [] = Some outs /\ values l [] = Some vals /\
  nth_error outs k = Some (SLik (Some a)) /\ nth_error vals k = Some (SLik (Some b)) /\ a <> b.
Proof.
  exists alg1, [@New alg1 1%Z 4%Z; @New alg1 1%Z 25%Z; @Likelihood alg1 0 2%Z; @Likelihood alg1 1 2%Z; @Assign alg1 0 1; @Likelihood alg1 0 2%Z].
  eexists. eexists. exists 5, (40, 24)%Z, (40, 150)%Z. repeat split; try (vm_compute; reflexivity). discriminate.
Qed.
Print Assumptions C30_assign_refuted.
