(** C01-C03: properties of TimeStamp.  Statements only; proofs in TimeStampProofs. *)
From Coq Require Import ZArith QArith Bool List.
From Verif Require Import Base TimeStampModel TimeStampSpec TimeStampProofs.
Import ListNotations.
Open Scope Z_scope.

(** ** C01 *)

(** The (s, ns) constructor and setTime(s, ns) give a normalised stamp for
    exactly s*10^9+ns nanoseconds, if and only if that instant is
    representable. *)
Theorem C01_make_exact_iff : forall s ns, fits32 s -> fits32 ns ->
  (exists t, make s ns = Val t /\ normal t /\ nanos t = s * 1000000000 + ns)
  <-> representable (s * 1000000000 + ns).
Proof. exact make_exact_iff_l. Qed.
Print Assumptions C01_make_exact_iff.

Example C01_make_exact_iff_ex :
  fits32 (-5) /\ fits32 (-1500000001) /\ representable (-5 * 1000000000 + -1500000001) /\
  make (-5) (-1500000001) = Val (TS (-7) 499999999).
Proof. repeat split; vm_compute; congruence. Qed.

(** + is exact exactly when the seconds sum and the result fit. *)
Theorem C01_add_exact_iff : forall a b, normal a -> normal b ->
  (exists c, ts_add a b = Val c /\ normal c /\ nanos c = nanos a + nanos b)
  <-> (fits32 (sec a + sec b) /\ representable (nanos a + nanos b)).
Proof. exact add_exact_iff_l. Qed.
Print Assumptions C01_add_exact_iff.

(** + is undefined exactly when the 32-bit seconds sum overflows ... *)
Theorem C01_add_ub_iff : forall a b, normal a -> normal b ->
  (ts_add a b = UB IntOverflow <-> ~ fits32 (sec a + sec b)).
Proof. exact add_ub_iff_l. Qed.
Print Assumptions C01_add_ub_iff.

(** ... and in the only remaining case the carry silently wraps by 2^32 s. *)
Theorem C01_add_silent_wrap : forall a b, normal a -> normal b ->
  fits32 (sec a + sec b) -> ~ representable (nanos a + nanos b) ->
  exists c, ts_add a b = Val c /\ normal c /\
    nanos c = nanos a + nanos b - 2 ^ 32 * 1000000000.
Proof. exact add_wrap_l. Qed.
Print Assumptions C01_add_silent_wrap.

Example C01_add_silent_wrap_ex :
  let a := TS (2 ^ 31 - 1) 999999999 in let b := TS 0 1 in
  normal a /\ normal b /\ fits32 (sec a + sec b) /\ ~ representable (nanos a + nanos b) /\
  ts_add a b = Val (TS (- 2 ^ 31) 0).
Proof. vm_compute. intuition congruence. Qed.

Theorem C01_sub_exact_iff : forall a b, normal a -> normal b ->
  (exists c, ts_sub a b = Val c /\ normal c /\ nanos c = nanos a - nanos b)
  <-> (fits32 (sec a - sec b) /\ representable (nanos a - nanos b)).
Proof. exact sub_exact_iff_l. Qed.
Print Assumptions C01_sub_exact_iff.

(** - never returns a wrong value: it is exact or undefined. *)
Theorem C01_sub_ub_iff : forall a b, normal a -> normal b ->
  (ts_sub a b = UB IntOverflow <->
   ~ (fits32 (sec a - sec b) /\ representable (nanos a - nanos b))).
Proof. exact sub_ub_iff_l. Qed.
Print Assumptions C01_sub_ub_iff.

Example C01_sub_ex :
  normal (TS 3 100) /\ normal (TS 7 200) /\
  ts_sub (TS 3 100) (TS 7 200) = Val (TS (-5) 999999900) /\
  ts_sub (TS (- 2 ^ 31) 0) (TS 0 1) = UB IntOverflow.
Proof. vm_compute. intuition congruence. Qed.

(** += and -= are the same functions as + and - on normalised stamps. *)
Theorem C01_assign_forms : forall a b, normal a -> normal b ->
  ts_add a b = ts_add_assign a b /\ ts_sub a b = ts_sub_assign a b.
Proof. exact (fun a b Ha Hb => conj (add_eq_assign a b Ha Hb) (sub_eq_assign a b Ha Hb)). Qed.
Print Assumptions C01_assign_forms.

(** Histories: any sequence of +=, -= and setTime whose ideal instants stay in
    range ends in the normalised stamp of the ideal instant. *)
Theorem C01_history_exact : forall ops t, normal t -> Forall op_ok ops ->
  in_range (nanos t) ops ->
  exists t', ts_run t ops = Val t' /\ normal t' /\
             nanos t' = fold_left ideal_step ops (nanos t).
Proof. exact run_exact. Qed.
Print Assumptions C01_history_exact.

(** Histories without any range assumption: whatever is returned is normalised. *)
Theorem C01_history_normal : forall ops t t', normal t -> Forall op_ok ops ->
  ts_run t ops = Val t' -> normal t'.
Proof. exact run_normal. Qed.
Print Assumptions C01_history_normal.

Example C01_history_ex :
  let ops := [OpAdd (TS 1 999999999); OpSub (TS 5 3); OpSet 2 (-1); OpAdd (TS 0 2)] in
  normal ts_zero /\ Forall op_ok ops /\ in_range (nanos ts_zero) ops /\
  ts_run ts_zero ops = Val (TS 2 1).
Proof.
  cbv zeta. split; [|split; [|split]].
  - vm_compute; intuition congruence.
  - repeat constructor; vm_compute; intuition congruence.
  - vm_compute; intuition congruence.
  - vm_compute; reflexivity.
Qed.

(** setTime(double), in exact arithmetic: a defined result is normalised and
    less than one nanosecond away from the argument; it is defined for every
    argument strictly between -2^31 and 2^31 seconds. *)
Theorem C01_setTime_accurate : forall q t, setTime q = Val t ->
  normal t /\
  (-1 < q * inject_Z 1000000000 - inject_Z (nanos t))%Q /\
  (q * inject_Z 1000000000 - inject_Z (nanos t) < 1)%Q.
Proof. exact setTime_accurate_l. Qed.
Print Assumptions C01_setTime_accurate.

Theorem C01_setTime_defined : forall q,
  (inject_Z (- 2 ^ 31) < q)%Q -> (q < inject_Z (2 ^ 31))%Q ->
  exists t, setTime q = Val t.
Proof. exact setTime_defined_l. Qed.
Print Assumptions C01_setTime_defined.

Theorem C01_setTime_getTime : forall t, normal t -> setTime (getTime t) = Val t.
Proof. exact setTime_getTime_l. Qed.
Print Assumptions C01_setTime_getTime.

Example C01_setTime_ex :
  setTime (- 5 # 2)%Q = Val (TS (-3) 500000000) /\
  setTime (getTime (TS (-3) 500000000)) = Val (TS (-3) 500000000).
Proof. vm_compute. split; reflexivity. Qed.

(** ** C02 *)

Theorem C02_compare_agrees_with_time : forall a b, normal a -> normal b ->
  (ts_ltb a b = true <-> nanos a < nanos b) /\
  (ts_leb a b = true <-> nanos a <= nanos b) /\
  (ts_gtb a b = true <-> nanos a > nanos b) /\
  (ts_geb a b = true <-> nanos a >= nanos b) /\
  (ts_eqb a b = true <-> nanos a = nanos b) /\
  (ts_neb a b = true <-> nanos a <> nanos b).
Proof. exact compare_agrees_l. Qed.
Print Assumptions C02_compare_agrees_with_time.

Example C02_compare_ex :
  normal (TS (-1) 5) /\ normal (TS (-1) 6) /\ ts_ltb (TS (-1) 5) (TS (-1) 6) = true.
Proof. vm_compute. intuition congruence. Qed.

Theorem C02_trichotomy : forall a b,
  (ts_ltb a b = true /\ ts_eqb a b = false /\ ts_gtb a b = false) \/
  (ts_ltb a b = false /\ ts_eqb a b = true /\ ts_gtb a b = false) \/
  (ts_ltb a b = false /\ ts_eqb a b = false /\ ts_gtb a b = true).
Proof. exact trichotomy_l. Qed.
Print Assumptions C02_trichotomy.

Theorem C02_boolean_combinations : forall a b,
  ts_leb a b = (ts_ltb a b || ts_eqb a b) /\
  ts_geb a b = (ts_gtb a b || ts_eqb a b) /\
  ts_neb a b = negb (ts_eqb a b) /\
  ts_gtb a b = ts_ltb b a /\ ts_geb a b = ts_leb b a.
Proof. exact boolean_combinations_l. Qed.
Print Assumptions C02_boolean_combinations.

Theorem C02_transitive : forall a b c,
  ts_ltb a b = true -> ts_ltb b c = true -> ts_ltb a c = true.
Proof. exact lt_trans_l. Qed.
Print Assumptions C02_transitive.

Example C02_transitive_ex :
  ts_ltb (TS 1 9) (TS 2 0) = true /\ ts_ltb (TS 2 0) (TS 2 1) = true.
Proof. split; reflexivity. Qed.

(** ** C03 *)

(** (a+b)-b = a whenever both operations are defined, even after a silent
    wrap (then the subtraction is undefined). *)
Theorem C03_add_sub_cancel : forall a b c d, normal a -> normal b ->
  ts_add a b = Val c -> ts_sub c b = Val d -> d = a.
Proof. exact add_sub_l. Qed.
Print Assumptions C03_add_sub_cancel.

Theorem C03_sub_add_cancel : forall a b c, normal a -> normal b ->
  ts_sub a b = Val c -> fits32 (sec c + sec b) -> ts_add c b = Val a.
Proof. exact sub_add_l. Qed.
Print Assumptions C03_sub_add_cancel.

Theorem C03_add_comm : forall a b, ts_add a b = ts_add b a.
Proof. exact add_comm_l. Qed.
Print Assumptions C03_add_comm.

Theorem C03_sub_self : forall a, normal a -> ts_sub a a = Val ts_zero.
Proof. exact sub_self_l. Qed.
Print Assumptions C03_sub_self.

Theorem C03_add_monotone : forall a b c x y, normal a -> normal b -> normal c ->
  representable (nanos a + nanos c) -> representable (nanos b + nanos c) ->
  ts_add a c = Val x -> ts_add b c = Val y ->
  ts_ltb x y = ts_ltb a b.
Proof. exact add_mono_l. Qed.
Print Assumptions C03_add_monotone.

Example C03_ex :
  let a := TS 10 600000000 in let b := TS (-4) 700000000 in
  normal a /\ normal b /\ ts_add a b = Val (TS 7 300000000) /\
  ts_sub (TS 7 300000000) b = Val a /\ fits32 (7 + -4) /\
  ts_add b a = Val (TS 7 300000000) /\
  representable (nanos a + nanos b).
Proof. vm_compute. intuition congruence. Qed.
