(** Theorems about angle normalisation. *)
From Coq Require Import Reals ZArith Lra Lia.
From Flocq Require Import Core BinarySingleNaN.
From Verif Require Import Base AngleModel AngleProofs AngleProofs2.
Local Open Scope R_scope.

(** * C49 *)

(** In exact arithmetic: the loops end for every angle, and with enough fuel the result is the
    same one, within [-pi, pi], whole turns away; an angle already there is not touched. *)
Theorem C49_real_partial : forall a, exists n y,
  (forall fuel, (n < fuel)%nat -> wrap fuel a = Val y) /\
  - PI <= y <= PI /\ (exists k : Z, y = a + IZR k * (2 * PI)) /\
  (- PI <= a <= PI -> y = a) /\ (PI < a -> - PI < y) /\ (a < - PI -> y < PI).
Proof. exact wrap_ok. Qed.
Print Assumptions C49_real_partial.

Example C49_real_ex : wrap 3 (4 * PI) = Val 0.
Proof.
  pose proof PI_RGT_0 as H. unfold wrap. cbn [wrap_down].
  destruct (Rlt_dec PI (4 * PI)); [|lra].
  destruct (Rlt_dec PI (4 * PI - 2 * PI)); [|lra].
  replace (4 * PI - 2 * PI - 2 * PI) with 0 by ring.
  destruct (Rlt_dec PI 0); [lra|]. cbn [obind wrap_up].
  destruct (Rlt_dec 0 (- PI)); [lra|reflexivity].
Qed.

(** In double precision: exactly for the finite angles up to 2^56 the loops end, and the result
    is within the double interval around zero. *)
Theorem C49_double_partial : forall x : double, is_finite x = true ->
  ((exists fuel y, wrapd fuel x = Val y) <-> Rabs (B2R x) <= bpow radix2 56) /\
  (Rabs (B2R x) <= bpow radix2 56 ->
   exists n y, (forall fuel, (n < fuel)%nat -> wrapd fuel x = Val y) /\
     is_finite y = true /\ - B2R PId <= B2R y <= B2R PId /\
     (- B2R PId <= B2R x <= B2R PId -> y = x)).
Proof. intros x H. exact (conj (wrapd_iff x H) (wrapd_ok x H)). Qed.
Print Assumptions C49_double_partial.

(** 10 becomes 10 - 4 pi in two steps. *)
Example C49_double_ex :
  omap B2SF (wrapd 3 (@B754_finite 53 1024 false 5629499534213120 (-49) eq_refl)) =
  Val (SpecFloat.S754_finite true 5778952871261280 (-51)).
Proof. vm_compute. reflexivity. Qed.

(** A finite double on which the loop runs for ever: 2^57; and the infinities. *)
Theorem C49_refuted :
  (exists x : double, is_finite x = true /\ forall fuel, wrapd fuel x = OutOfFuel) /\
  (forall s fuel, wrapd fuel (B754_infinity s) = OutOfFuel).
Proof.
  split; [|exact wrapd_inf].
  exists (@B754_finite 53 1024 false 4503599627370496 5 eq_refl). split; [reflexivity|].
  apply stuck_above; [reflexivity|]. unfold B2R, F2R. simpl. lra.
Qed.
Print Assumptions C49_refuted.

(** The innovation: the plain range difference, the bearing difference brought to one turn,
    given unless one of the positive thresholds is exceeded. *)
Theorem C49_innovation_partial : forall th ze za,
  exists n r, (forall fuel, (n < fuel)%nat -> innovation2 fuel th ze za = Val r) /\
    match r with
    | Some (dr, b) => dr = fst za - fst ze /\ - PI <= b <= PI /\
        (exists k : Z, b = snd za - snd ze + IZR k * (2 * PI)) /\
        (0 < th_range th -> Rabs dr <= th_range th) /\ (0 < th_bearing th -> Rabs b <= th_bearing th)
    | None => (0 < th_range th /\ th_range th < Rabs (fst za - fst ze)) \/
        (0 < th_bearing th /\ exists b, - PI <= b <= PI /\ (exists k : Z, b = snd za - snd ze + IZR k * (2 * PI)) /\
           th_bearing th < Rabs b)
    end.
Proof. exact innovation2_ok. Qed.
Print Assumptions C49_innovation_partial.

(** The values of the constructors: thresholds of -1 accept everything. *)
Example C49_innovation_ex : innovation2 2 (Thr (-1) (-1)) (1, -3) (1, 3) = Val (Some (1 - 1, 3 - -3 - 2 * PI)).
Proof.
  pose proof PI_4. assert (3 < PI) by (pose proof PI2_3_2; lra). unfold innovation2, exceeds. cbn [fst snd th_range th_bearing].
  destruct (Rlt_dec 0 (-1)); [lra|]. unfold wrap. cbn [wrap_down].
  destruct (Rlt_dec PI (3 - -3)); [|lra]. destruct (Rlt_dec PI (3 - -3 - 2 * PI)); [lra|].
  cbn [obind wrap_up]. destruct (Rlt_dec (3 - -3 - 2 * PI) (- PI)); [lra|]. reflexivity.
Qed.

(** * C75 *)

(** The reported distance is that of the innovation when the bearings are less than half a
    turn apart. *)
Theorem C75_partial : forall fuel th S ze za i, innovation2 fuel th ze za = Val (Some i) ->
  Rabs (snd za - snd ze) <= PI -> maha2 S ze za = quad2 S i.
Proof. exact maha_agree. Qed.
Print Assumptions C75_partial.

Example C75_ex : innovation2 2 (Thr (-1) (-1)) (1, 0) (1, 0) = Val (Some (1 - 1, 0 - 0)) /\ Rabs (snd (1, 0) - snd (1, 0)) <= PI.
Proof.
  pose proof PI_RGT_0. unfold innovation2, exceeds. cbn [fst snd th_range th_bearing].
  destruct (Rlt_dec 0 (-1)); [lra|]. unfold wrap. cbn [wrap_down].
  destruct (Rlt_dec PI (0 - 0)); [lra|]. cbn [obind wrap_up]. destruct (Rlt_dec (0 - 0) (- PI)); [lra|].
  split; [reflexivity|]. rewrite Rminus_0_r, Rabs_R0. lra.
Qed.

(** Bearings -3 and 3 are 0.28 apart; the filter corrects with that innovation and reports the
    distance of 6. *)
Theorem C75_refuted : exists th S ze za i,
  innovation2 2 th ze za = Val (Some i) /\ quad2 S i <= 4 /\ maha2 S ze za = 36.
Proof.
  exists (Thr (-1) (-1)), (Sym2 1 0 1), (1, -3), (1, 3), (1 - 1, 3 - -3 - 2 * PI).
  split; [exact C49_innovation_ex|].
  pose proof PI_4. assert (3 < PI) by (pose proof PI2_3_2; lra).
  unfold maha2, quad2. cbn [fst snd s11 s12 s22]. split; [nra|ring].
Qed.
Print Assumptions C75_refuted.
