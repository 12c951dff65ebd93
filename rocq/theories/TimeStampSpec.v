(** What a TimeStamp means: an integer number of nanoseconds. *)
From Coq Require Import ZArith List.
From Verif Require Import TimeStampModel.
Import ListNotations.
Open Scope Z_scope.

(** Instant denoted by a stamp, in nanoseconds. *)
Definition nanos (t : timestamp) : Z := sec t * 1000000000 + nsec t.

(** Normal form: the seconds fit in 32 bits and 0 <= nsec < 10^9. *)
Definition normal (t : timestamp) : Prop :=
  - 2 ^ 31 <= sec t < 2 ^ 31 /\ 0 <= nsec t < 1000000000.

(** Signed 32-bit range. *)
Definition fits32 (z : Z) : Prop := - 2 ^ 31 <= z < 2 ^ 31.

(** [z] nanoseconds can be represented. *)
Definition representable (z : Z) : Prop := fits32 (z / 1000000000).

(** Ideal effect of an operation on the denoted instant. *)
Definition ideal_step (z : Z) (o : ts_op) : Z :=
  match o with
  | OpAdd b => z + nanos b
  | OpSub b => z - nanos b
  | OpSet s ns => s * 1000000000 + ns
  end.

(** Operand well-formedness: stamps come from the API, ints are int32_t. *)
Definition op_ok (o : ts_op) : Prop :=
  match o with
  | OpAdd b | OpSub b => normal b
  | OpSet s ns => fits32 s /\ fits32 ns
  end.

(** The 32-bit seconds arithmetic of the operation does not overflow. *)
Definition sec_ok (z : Z) (o : ts_op) : Prop :=
  match o with
  | OpAdd b => fits32 (z / 1000000000 + sec b)
  | OpSub b => fits32 (z / 1000000000 - sec b)
  | OpSet _ _ => True
  end.

(** Along the whole history every ideal instant is representable and no
    seconds field overflows. *)
Fixpoint in_range (z : Z) (ops : list ts_op) : Prop :=
  match ops with
  | [] => True
  | o :: ops' =>
      sec_ok z o /\ representable (ideal_step z o) /\ in_range (ideal_step z o) ops'
  end.
