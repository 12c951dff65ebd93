(** Shared vocabulary of all model files: outcomes of C++ code.

    Not a model of any single source file.  [outcome] makes undefined
    behaviour of the C++ code a distinct result instead of assuming it away. *)

(** Reasons for leaving the defined behaviour of C++ (or of the run time). *)
Inductive ub : Type :=
| NullDeref        (** dereference of a NULL pointer *)
| UseAfterFree     (** access to an object that has been deleted *)
| DoubleFree       (** delete of an object that has been deleted *)
| OutOfBounds      (** array / vector index outside the allocated range *)
| IntOverflow      (** signed overflow or out-of-range float-to-int cast *)
| BadIterator      (** increment or dereference of an end iterator *)
| Uninit           (** read of an uninitialised variable *)
| DivByZero        (** division by zero (inf / NaN in floating point) *)
| Aborted          (** assert / exit / uncaught exception *)
| DataRace.        (** conflicting unsynchronised accesses *)

Inductive outcome (A : Type) : Type :=
| Val : A -> outcome A
| UB : ub -> outcome A
| OutOfFuel : outcome A.
Arguments Val {A} _.
Arguments UB {A} _.
Arguments OutOfFuel {A}.

Definition obind {A B : Type} (x : outcome A) (f : A -> outcome B) : outcome B :=
  match x with
  | Val a => f a
  | UB u => UB u
  | OutOfFuel => OutOfFuel
  end.

Definition omap {A B : Type} (f : A -> B) (x : outcome A) : outcome B :=
  obind x (fun a => Val (f a)).

Definition of_option {A : Type} (u : ub) (x : option A) : outcome A :=
  match x with Some a => Val a | None => UB u end.

Definition guard {A : Type} (b : bool) (u : ub) (k : outcome A) : outcome A :=
  if b then k else UB u.

Notation "'let*' x ':=' e 'in' k" := (obind e (fun x => k))
  (at level 200, x pattern, e at level 100, k at level 200, right associativity).

Lemma obind_val : forall (A B : Type) (x : outcome A) (f : A -> outcome B) b,
  obind x f = Val b -> exists a, x = Val a /\ f a = Val b.
Proof. intros A B [a|u|] f b H; simpl in H; try discriminate. eauto. Qed.
