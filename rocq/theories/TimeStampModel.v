(** Model of include/TimeStamp.hpp and src/TimeStamp.cpp. *)
From Coq Require Import ZArith QArith Bool List.
From Verif Require Import Base.
Import ListNotations.
Open Scope Z_scope.

(** Limits of int32_t, the type of include/TimeStamp.hpp:109-110. *)
Definition INT32_MIN : Z := - 2 ^ 31.
(** Limits of int32_t, the type of include/TimeStamp.hpp:109-110. *)
Definition INT32_MAX : Z := 2 ^ 31 - 1.

(** Range test for int32_t values (the type of [sec] and [nsec],
    include/TimeStamp.hpp 109-110). *)
Definition in32 (z : Z) : bool := (INT32_MIN <=? z) && (z <=? INT32_MAX).

(** An int32_t arithmetic result: signed overflow is undefined behaviour. *)
Definition int32 (z : Z) : outcome Z := if in32 z then Val z else UB IntOverflow.

(** Conversion of a [long] value to int32_t when it is stored in an int32_t
    variable (include/TimeStamp.hpp 205-206 and 208).  [long] is taken as 64
    bits (LP64), so the expression itself cannot overflow; the narrowing
    conversion keeps the value modulo 2^32 as GCC and Clang define it. *)
Definition wrap32 (z : Z) : Z := (z + 2 ^ 31) mod 2 ^ 32 - 2 ^ 31.

(** include/TimeStamp.hpp 109-110: the two public data members. *)
Record timestamp : Type := TS { sec : Z; nsec : Z }.

(** Part of the above, include/TimeStamp.hpp:109-110. *)
Definition NS : Z := 1000000000.

(** include/TimeStamp.hpp 203-213, TimeStamp::normalize.  C++ [%] and [/]
    truncate towards zero.  [sec_temp--] is an int32_t operation (UB on
    overflow). *)
Definition normalize (t : timestamp) : outcome timestamp :=
  let nsec_temp := wrap32 (Z.rem (nsec t) NS) in
  let sec_temp := wrap32 (sec t + Z.quot (nsec t) NS) in
  if nsec_temp <? 0 then
    let* s := int32 (sec_temp - 1) in
    Val (TS s (wrap32 (nsec_temp + NS)))
  else Val (TS sec_temp nsec_temp).

(** src/TimeStamp.cpp 37-40, default constructor. *)
Definition ts_zero : timestamp := TS 0 0.

(** src/TimeStamp.cpp 42-44 constructor from (s, ns), and 67-71
    TimeStamp::setTime(int32_t,int32_t). *)
Definition make (s ns : Z) : outcome timestamp := normalize (TS s ns).

(** include/TimeStamp.hpp 142-147 operator+ : int32_t additions in the
    argument list, normalising constructor, then normalize again. *)
Definition ts_add (a b : timestamp) : outcome timestamp :=
  let* s := int32 (sec a + sec b) in
  let* n := int32 (nsec a + nsec b) in
  let* t := make s n in
  normalize t.

(** include/TimeStamp.hpp 135-140 operator+= : like + but with a single
    normalize. *)
Definition ts_add_assign (a b : timestamp) : outcome timestamp :=
  let* s := int32 (sec a + sec b) in
  let* n := int32 (nsec a + nsec b) in
  normalize (TS s n).

(** include/TimeStamp.hpp 156-161 operator-. *)
Definition ts_sub (a b : timestamp) : outcome timestamp :=
  let* s := int32 (sec a - sec b) in
  let* n := int32 (nsec a - nsec b) in
  let* t := make s n in
  normalize t.

(** include/TimeStamp.hpp 149-154 operator-=. *)
Definition ts_sub_assign (a b : timestamp) : outcome timestamp :=
  let* s := int32 (sec a - sec b) in
  let* n := int32 (nsec a - nsec b) in
  normalize (TS s n).

(** include/TimeStamp.hpp 121-126 operator==. *)
Definition ts_eqb (a b : timestamp) : bool :=
  (sec a =? sec b) && (nsec a =? nsec b).

(** include/TimeStamp.hpp 128-133 operator!=. *)
Definition ts_neb (a b : timestamp) : bool :=
  negb (sec a =? sec b) || negb (nsec a =? nsec b).

(** include/TimeStamp.hpp 163-171 operator<=. *)
Definition ts_leb (a b : timestamp) : bool :=
  if sec a <? sec b then true
  else if (sec a =? sec b) && (nsec a <=? nsec b) then true else false.

(** include/TimeStamp.hpp 173-181 operator<. *)
Definition ts_ltb (a b : timestamp) : bool :=
  if sec a <? sec b then true
  else if (sec a =? sec b) && (nsec a <? nsec b) then true else false.

(** include/TimeStamp.hpp 183-191 operator>=. *)
Definition ts_geb (a b : timestamp) : bool :=
  if sec b <? sec a then true
  else if (sec a =? sec b) && (nsec b <=? nsec a) then true else false.

(** include/TimeStamp.hpp 193-201 operator>. *)
Definition ts_gtb (a b : timestamp) : bool :=
  if sec b <? sec a then true
  else if (sec a =? sec b) && (nsec b <? nsec a) then true else false.

(** Truncation towards zero, as done by modf and by the cast to int32_t
    (src/TimeStamp.cpp 60-62). *)
Definition Qtrunc (q : Q) : Z := Z.quot (Qnum q) (Zpos (Qden q)).

(** src/TimeStamp.cpp 57-65, TimeStamp::setTime(double) and 46-48.
    Simplification: the double [t] is an exact rational and
    [fracPart * 1000000000] is not rounded.  An out-of-range cast to int32_t is
    undefined behaviour. *)
Definition setTime (t : Q) : outcome timestamp :=
  let intPart := Qtrunc t in
  let fracPart := (t - inject_Z intPart)%Q in
  let* s := int32 intPart in
  let* n := int32 (Qtrunc (fracPart * inject_Z NS)) in
  normalize (TS s n).

(** src/TimeStamp.cpp 52-55, TimeStamp::getTimeAsDouble.  Simplification:
    exact rational instead of a rounded double. *)
Definition getTime (t : timestamp) : Q :=
  (inject_Z (sec t) + inject_Z (nsec t) * (1 # 1000000000))%Q.

(** A client program that keeps updating one stamp with += and -=
    (include/TimeStamp.hpp 135-154) and overwriting it with setTime
    (src/TimeStamp.cpp 67-71). *)
Inductive ts_op : Type :=
| OpAdd (b : timestamp)
| OpSub (b : timestamp)
| OpSet (s ns : Z).

(** Part of the above, include/TimeStamp.hpp:135-154, src/TimeStamp.cpp:67-71. *)
Definition ts_step (t : timestamp) (o : ts_op) : outcome timestamp :=
  match o with
  | OpAdd b => ts_add_assign t b
  | OpSub b => ts_sub_assign t b
  | OpSet s ns => make s ns
  end.

(** Part of the above, include/TimeStamp.hpp:135-154, src/TimeStamp.cpp:67-71. *)
Fixpoint ts_run (t : timestamp) (ops : list ts_op) : outcome timestamp :=
  match ops with
  | [] => Val t
  | o :: ops' => let* t' := ts_step t o in ts_run t' ops'
  end.
