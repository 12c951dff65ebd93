(** Model of class RandomVec, include/RandomVec.hpp:68-680: the caches of inverse,
    determinant, Cholesky factor and Gaussian normalisation factor.

    Simplifications: the matrix operations of Eigen, sqrt and exp are
    unspecified functions; the time stamp and the temporary e_ are left out; the
    assertions (dimCheck, checkCov) are taken to hold; sampling noise is an
    argument.  A program is a list of operations on a store of objects. *)
From Coq Require Import List Bool Arith.
From Verif Require Import Base ListUtil.
Import ListNotations.

(** External functions used by RandomVec, with the lines that call them. *)
Record algebra := ALG {
  Vec : Type; Mat : Type; Num : Type; Fac : Type; Lik : Type;
  m_zero : Mat;                   (* Sx_.setZero(), include/RandomVec.hpp:93,149,166 *)
  m_inv : Mat -> Mat;             (* Sx_.inverse(), 353,430 *)
  m_det : Mat -> Num;             (* Sx_.determinant(), 365,459 *)
  m_chol : Mat -> Mat;            (* LLT, 340,612,634 *)
  v_quad : Vec -> Vec -> Mat -> Num; (* (to - x)^T * M * (to - x), 433-434,446-447 *)
  v_move : Vec -> Mat -> Vec -> Vec; (* x + L * noise, 610,614,642 *)
  n_factor : Num -> Fac;          (* sqrt( pow( 2*PI, nDim ) * det ), 460 *)
  n_lik : Num -> Fac -> Lik       (* exp(-0.5 * md2) / factor or the logarithm of it, 464-466,489-491 *)
}.

Section RV.
Variable A : algebra.

(** Data members, include/RandomVec.hpp:655-669.  [gfac] is None while
    gaussian_pdf_factor_ has not been written. *)
Record rvec := RV { rx : Vec A; rS : Mat A;
  rinv : option (Mat A); vinv : bool;
  rdet : option (Num A); vdet : bool;
  rL : option (Mat A); vL : bool;
  gfac : option (Fac A) }.

(** Member functions of include/RandomVec.hpp:68-680 applied to objects, named by their
    index in the store. *)
Inductive op :=
| New (x : Vec A) (S : Mat A)     (* constructors, include/RandomVec.hpp:103-133 *)
| NewMean (x : Vec A)             (* constructor without covariance, 142-152; with 85-95,158-169 *)
| Copy (j : nat)                  (* copy constructor, 175-186 *)
| Assign (i j : nat)              (* objects[i] = objects[j], 192-206 *)
| SetX (i : nat) (x : Vec A)      (* set( x ) or writing through operator[], 215-218,253 *)
| SetCov (i : nat) (S : Mat A)    (* setCov, 259-265 *)
| GetChol (i : nat)               (* getCovCholeskyDecompLower, 338-345 *)
| GetInv (i : nat)                (* getCovInv, 351-357 *)
| GetDet (i : nat)                (* getCovDet, 363-369 *)
| Mahal (i : nat) (to : Vec A)    (* mahalanobisDist2, 428-448 *)
| Likelihood (i : nat) (to : Vec A) (* evalGaussianLikelihood and evalGaussianLogLikelihood, 456-588 *)
| SampleTo (i j : nat) (noise : Vec A) (* objects[i].sample( objects[j] ), 598-618 *)
| Sample (i : nat) (noise : Vec A).    (* sample(), 624-645 *)

(** What a caller sees of one operation (return values in include/RandomVec.hpp:338-588); [SLik None]: computed from an uninitialised factor. *)
Inductive seen := SNone | SMat (m : option (Mat A)) | SNum (n : option (Num A)) | SLik (l : option (Lik A)).

(** Constructor, include/RandomVec.hpp:103-113. *)
Definition fresh (x : Vec A) (S : Mat A) : rvec := RV x S None false None false None false None.

(** operator=, include/RandomVec.hpp:192-206: gaussian_pdf_factor_ is not copied. *)
Definition assign (lhs rhs : rvec) : rvec :=
  RV (rx rhs) (rS rhs) (rinv rhs) (vinv rhs) (rdet rhs) (vdet rhs) (rL rhs) (vL rhs) (gfac lhs).

(** Copy constructor, include/RandomVec.hpp:175-186. *)
Definition copy_of (o : rvec) : rvec :=
  RV (rx o) (rS o) (rinv o) (vinv o) (rdet o) (vdet o) (rL o) (vL o) (gfac o).

(** set( x ), include/RandomVec.hpp:253. *)
Definition setX (o : rvec) (x : Vec A) : rvec :=
  RV x (rS o) (rinv o) (vinv o) (rdet o) (vdet o) (rL o) (vL o) (gfac o).

(** setCov, include/RandomVec.hpp:259-265. *)
Definition setCov (o : rvec) (S : Mat A) : rvec :=
  RV (rx o) S (rinv o) false (rdet o) false (rL o) false (gfac o).

(** The guarded recomputation in include/RandomVec.hpp:339-343,632-636. *)
Definition need_L (o : rvec) : rvec :=
  if vL o then o else RV (rx o) (rS o) (rinv o) (vinv o) (rdet o) (vdet o) (Some (m_chol A (rS o))) true (gfac o).

(** The guarded recomputation in include/RandomVec.hpp:352-355,429-432. *)
Definition need_inv (o : rvec) : rvec :=
  if vinv o then o else RV (rx o) (rS o) (Some (m_inv A (rS o))) true (rdet o) (vdet o) (rL o) (vL o) (gfac o).

(** getCovDet, include/RandomVec.hpp:363-369. *)
Definition need_det (o : rvec) : rvec :=
  if vdet o then o
  else RV (rx o) (rS o) (rinv o) (vinv o) (Some (m_det A (rS o))) true (rL o) (vL o) (gfac o).

(** The guarded recomputation in include/RandomVec.hpp:458-462. *)
Definition need_factor (o : rvec) : rvec :=
  if vdet o then o
  else RV (rx o) (rS o) (rinv o) (vinv o) (Some (m_det A (rS o))) true (rL o) (vL o)
          (Some (n_factor A (m_det A (rS o)))).

(** One operation on the store; None: no object with that index
    (include/RandomVec.hpp:68-680). *)
Definition exec (o : op) (st : list rvec) : option (list rvec * seen) :=
  match o with
  | New x M => Some (st ++ [fresh x M], SNone)
  | NewMean x => Some (st ++ [fresh x (m_zero A)], SNone)
  | Copy j => match nth_error st j with Some r => Some (st ++ [copy_of r], SNone) | None => None end
  | Assign i j =>
    match nth_error st i, nth_error st j with
    | Some l, Some r => Some (upd st i (assign l r), SNone)
    | _, _ => None
    end
  | SetX i x => match nth_error st i with Some r => Some (upd st i (setX r x), SNone) | None => None end
  | SetCov i M => match nth_error st i with Some r => Some (upd st i (setCov r M), SNone) | None => None end
  | GetChol i =>
    match nth_error st i with
    | Some r => let r' := need_L r in Some (upd st i r', SMat (rL r'))
    | None => None
    end
  | GetInv i =>
    match nth_error st i with
    | Some r => let r' := need_inv r in Some (upd st i r', SMat (rinv r'))
    | None => None
    end
  | GetDet i =>
    match nth_error st i with
    | Some r => let r' := need_det r in Some (upd st i r', SNum (rdet r'))
    | None => None
    end
  | Mahal i to =>
    match nth_error st i with
    | Some r => let r' := need_inv r in
                Some (upd st i r', SNum (option_map (v_quad A (rx r') to) (rinv r')))
    | None => None
    end
  | Likelihood i to =>
    match nth_error st i with
    | Some r =>
      let r' := need_inv (need_factor r) in
      Some (upd st i r', SLik (match rinv r', gfac r' with
                               | Some M, Some f => Some (n_lik A (v_quad A (rx r') to M) f)
                               | _, _ => None
                               end))
    | None => None
    end
  | SampleTo i j noise =>
    match nth_error st i, nth_error st j with
    | Some r, Some s =>
      let L := if vL r then rL r else Some (m_chol A (rS r)) in
      match L with
      | Some M => Some (upd st j (setCov (setX s (v_move A (rx r) M noise)) (rS r)), SNone)
      | None => None
      end
    | _, _ => None
    end
  | Sample i noise =>
    match nth_error st i with
    | Some r =>
      let r' := need_L r in
      match rL r' with
      | Some M => Some (upd st i (setX r' (v_move A (rx r') M noise)), SNone)
      | None => None
      end
    | None => None
    end
  end.

(** A program (include/RandomVec.hpp:68-680): what is seen, in order. *)
Fixpoint exec_all (l : list op) (st : list rvec) : option (list seen) :=
  match l with
  | [] => Some []
  | o :: r =>
    match exec o st with
    | Some (st', s) => option_map (cons s) (exec_all r st')
    | None => None
    end
  end.
End RV.
Arguments New {A}. Arguments NewMean {A}. Arguments Copy {A}. Arguments Assign {A}. Arguments SetX {A}.
Arguments SetCov {A}. Arguments GetChol {A}. Arguments GetInv {A}. Arguments GetDet {A}. Arguments Mahal {A}.
Arguments Likelihood {A}. Arguments SampleTo {A}. Arguments Sample {A}.
Arguments SNone {A}. Arguments SMat {A}. Arguments SNum {A}. Arguments SLik {A}.
Arguments exec {A}. Arguments exec_all {A}.
