(** What RandomVec is supposed to show: vectors without caches. *)
From Coq Require Import List Bool Arith.
From Verif Require Import Base ListUtil RVecModel.
Import ListNotations.

Section Spec.
Variable A : algebra.

(** Mean and covariance only; everything is computed anew. *)
Definition value (o : op A) (st : list (Vec A * Mat A)) : option (list (Vec A * Mat A) * seen A) :=
  match o with
  | New x M => Some (st ++ [(x, M)], SNone)
  | NewMean x => Some (st ++ [(x, m_zero A)], SNone)
  | Copy j => option_map (fun v => (st ++ [v], SNone)) (nth_error st j)
  | Assign i j =>
    match nth_error st i, nth_error st j with Some _, Some v => Some (upd st i v, SNone) | _, _ => None end
  | SetX i x => option_map (fun v => (upd st i (x, snd v), SNone)) (nth_error st i)
  | SetCov i M => option_map (fun v => (upd st i (fst v, M), SNone)) (nth_error st i)
  | GetChol i => option_map (fun v => (st, SMat (Some (m_chol A (snd v))))) (nth_error st i)
  | GetInv i => option_map (fun v => (st, SMat (Some (m_inv A (snd v))))) (nth_error st i)
  | GetDet i => option_map (fun v => (st, SNum (Some (m_det A (snd v))))) (nth_error st i)
  | Mahal i to => option_map (fun v => (st, SNum (Some (v_quad A (fst v) to (m_inv A (snd v)))))) (nth_error st i)
  | Likelihood i to =>
    option_map (fun v => (st, SLik (Some (n_lik A (v_quad A (fst v) to (m_inv A (snd v)))
                                               (n_factor A (m_det A (snd v))))))) (nth_error st i)
  | SampleTo i j noise =>
    match nth_error st i, nth_error st j with
    | Some v, Some _ => Some (upd st j (v_move A (fst v) (m_chol A (snd v)) noise, snd v), SNone)
    | _, _ => None
    end
  | Sample i noise =>
    option_map (fun v => (upd st i (v_move A (fst v) (m_chol A (snd v)) noise, snd v), SNone)) (nth_error st i)
  end.

Fixpoint values (l : list (op A)) (st : list (Vec A * Mat A)) : option (list (seen A)) :=
  match l with
  | [] => Some []
  | o :: r => match value o st with Some (st', s) => option_map (cons s) (values r st') | None => None end
  end.

Definition is_likelihood (o : op A) : bool := match o with Likelihood _ _ => true | _ => false end.

(** History of an object since its covariance was last set: determinant not asked for;
    a likelihood asked for first; determinant asked for first, or assigned from
    an object whose determinant had been computed. *)
Inductive status := NoDet | Good | Bad.

Definition after_assign (s : status) : status := match s with NoDet => NoDet | _ => Bad end.

Definition after_det (s : status) : status := match s with NoDet => Bad | Good => Good | Bad => Bad end.
Definition after_lik (s : status) : status := match s with NoDet => Good | Good => Good | Bad => Bad end.

Definition track (o : op A) (st : list status) : list status :=
  match o with
  | New _ _ | NewMean _ => st ++ [NoDet]
  | Copy j => st ++ [nth j st Bad]
  | Assign i j => upd st i (after_assign (nth j st Bad))
  | SetCov i _ => upd st i NoDet
  | SampleTo _ j _ => upd st j NoDet
  | GetDet i => upd st i (after_det (nth i st Bad))
  | Likelihood i _ => upd st i (after_lik (nth i st Bad))
  | _ => st
  end.

(** The k-th operation is a likelihood of an object that is not Bad. *)
Fixpoint trusted (l : list (op A)) (st : list status) : list bool :=
  match l with
  | [] => []
  | o :: r =>
    (match o with Likelihood i _ => match nth i st Bad with Bad => false | _ => true end | _ => false end)
    :: trusted r (track o st)
  end.
End Spec.
Arguments value {A}. Arguments values {A}. Arguments is_likelihood {A}. Arguments track {A}. Arguments trusted {A}.
