(** Specification side of C170-C174. *)
From Coq Require Import QArith ZArith List Bool Arith.
From Verif Require Import Base GMModel GMSpec AccessModel.
Import ListNotations.

(** What the user is told of slot v: landmark and weight, nothing for an empty slot. *)
Definition seen (v : vslot) : list (lmk * Q) := match v with (Some l, w, _) => [(l, w)] | (None, _, _) => [] end.
Definition contents (V : list vslot) : list (lmk * Q) := flat_map seen V.

(** Every particle's map is well formed. *)
Definition wf_maps (h : heap) (ps : list gm) : Prop := forall g, In g ps -> exists F, good h g F.

(** ** Integrity *)
Definition qsumQ (l : list Q) : Q := fold_right Qplus 0 l.
(** x^T S x. *)
Fixpoint dot (r x : list Q) : Q := match r, x with a :: r', b :: x' => a * b + dot r' x' | _, _ => 0 end.
Definition quad (Sx : list (list Q)) (x : list Q) : Q := dot (map (fun r => dot r x) Sx) x.
Definition square (n : nat) (Sx : list (list Q)) : Prop := length Sx = n /\ forall r, In r Sx -> length r = n.
Definition pos_def (n : nat) (Sx : list (list Q)) : Prop :=
  forall x, length x = n -> (exists a, In a x /\ ~ a == 0) -> 0 < quad Sx x.

(** A Gaussian whose every number is a number. *)
Definition numeric (g : gauss) (x : list Q) (Sx : list (list Q)) (w : Q) : Prop :=
  u_x g = map Some x /\ u_S g = map (map Some) Sx /\ u_w g = Some w.

(** What the check looks at: no NaN, and the entries of the covariance add up to more than zero. *)
Definition passes (g : gauss) : Prop :=
  exists x Sx w, numeric g x Sx w /\ 0 < qsumQ (map qsumQ Sx).
(** What its name promises. *)
Definition sound_gauss (g : gauss) : Prop :=
  exists n x Sx w, numeric g x Sx w /\ length x = S n /\ square (S n) Sx /\ pos_def (S n) Sx.
Definition live_slots (m : nmap) : nat := length (filter (fun o => match o with Some _ => true | None => false end) (n_slots m)).

(** ** Log files *)
Section Logs.
Context {A : Type}.
(** A time step of the old pose file: time, number of particles, rows. *)
Record pstep := PStep { p_t : A; p_n : Z; p_rows : list (A * A * A * A) }.
Definition pstep_ok (s : pstep) : Prop := Z.to_nat (p_n s) = length (p_rows s).
Definition old_row (r : A * A * A * A) : line := let '(x, y, z, w) := r in LRow [x; y; z; w].
Definition old_step (s : pstep) : list line := LTime (p_t s) :: LNPart (p_n s) :: map old_row (p_rows s).
Fixpoint number {B : Type} (i : Z) (l : list B) : list (Z * B) := match l with [] => [] | x :: r => (i, x) :: number (i + 1) r end.
Definition new_row (t : A) (x : Z * (A * A * A * A)) : line := let '(i, (a, b, c, d)) := x in LNewPose t i [a; b; c; d].
Definition new_step (s : pstep) : list line := map (new_row (p_t s)) (number 0 (p_rows s)).

(** A map of the old landmark file: time, particle, announced size, rows (mean, the four entries of
    the covariance, weight). *)
Record mblock := MBlock { m_t : A; m_pid : Z; m_n : Z; m_rows : list (A * A * (A * A * A * A) * A) }.
Definition mblock_ok (b : mblock) : Prop := Z.to_nat (m_n b) = length (m_rows b).
Definition old_lrow (r : A * A * (A * A * A * A) * A) : line := let '(x, y, (a, b, c, d), w) := r in LRow [x; y; a; b; c; d; w].
Definition old_block (b : mblock) : list line := LMap (m_t b) (m_pid b) (m_n b) :: map old_lrow (m_rows b).
Definition new_lrow (t : A) (pid : Z) (r : A * A * (A * A * A * A) * A) : line :=
  let '(x, y, (a, b, c, d), w) := r in LNewLmk t pid [x; y; a; b; d; w].
Definition new_block (b : mblock) : list line := map (new_lrow (m_t b) (m_pid b)) (m_rows b).
Definition starts_map (f : list (@line A)) : Prop := match f with LMap _ _ _ :: _ => True | _ => False end.
(** Rows of the file that hold a landmark. *)
Definition is_lrow (x : @line A) : bool := match x with LRow [_; _; _; _; _; _; _] => true | _ => false end.
End Logs.
