(** Properties C129-C133: binary descriptors. *)
From Coq Require Import ZArith List Bool QArith Qcanon Lia Arith.
From Verif Require Import PermanentSpec OrbModel OrbSpec OrbProofs OrbProofs2.
Import ListNotations.
Local Open Scope Qc_scope.

(** * C129: distance *)

(** The distance is the number of bits that differ, and a metric on descriptors. *)
Theorem C129_count : forall a b, descriptor a -> descriptor b -> distance a b = differs a b.
Proof. exact distance_differs. Qed.
Print Assumptions C129_count.
Theorem C129_metric : forall a b c, descriptor a -> descriptor b -> descriptor c ->
  (distance a b = 0%nat <-> a = b) /\ distance a b = distance b a /\ (distance a c <= distance a b + distance b c)%nat /\
  (distance a b <= 256)%nat.
Proof. exact distance_metric. Qed.
Print Assumptions C129_metric.
Example C129_ex : descriptor (repeat true 3 ++ repeat false 253) /\ descriptor (repeat false 256) /\
  distance (repeat true 3 ++ repeat false 253) (repeat false 256) = 3%nat.
Proof. split; [reflexivity|]. split; reflexivity. Qed.

(** * C130: order of likelihoods, normalisation *)
Theorem C130_order_partial : forall a b c d, (likelihood a b < likelihood c d <-> (distance c d < distance a b)%nat) /\
  likelihood a b = likelihood b a /\ 0 < likelihood a b.
Proof. exact likelihood_order. Qed.
Print Assumptions C130_order_partial.
(** Neither the likelihoods of all descriptors nor the false alarms add up to one; both have the same total. *)
Theorem C130_refuted : forall l, enumerates l -> (forall a, descriptor a -> 1 < qsum (map (likelihood a) l)) /\
  1 < qsum (map (fun _ => false_alarm) l) /\ (forall a, descriptor a -> qsum (map (likelihood a) l) = qsum (map (fun _ => false_alarm) l)).
Proof. exact totals. Qed.
Print Assumptions C130_refuted.
Example C130_refuted_ex : exists l, enumerates l.
Proof. exists (all_bits 256). split; [apply all_bits_nodup|]. intro d. apply all_bits_in. Qed.

(** * C131: likelihood against false alarms *)

(** Up to one common factor: the channel that flips each bit with probability 1/2.1, and the uniform
    distribution; so every ratio is right. *)
Theorem C131_channel : exists K, 0 < K /\ false_alarm = K * uniform /\
  forall a b, descriptor a -> descriptor b -> likelihood a b = K * channel (Q2Qc (10 # 21)) a b.
Proof. exact common_factor. Qed.
Print Assumptions C131_channel.
(** Both are probability distributions. *)
Theorem C131_probability : forall p a l, descriptor a -> enumerates l -> qsum (map (channel p a) l) = 1.
Proof. exact channel_total. Qed.
Print Assumptions C131_probability.
(** So the weights of a measurement over landmarks (prior weight, spatial likelihood, descriptor) and
    clutter are those of the channel. *)
Theorem C131_weights : forall c z ls i, descriptor z -> (forall l, In l ls -> descriptor (snd l)) -> In i ls ->
  c * uniform + qsum (map (fun l => fst (fst l) * (snd (fst l) * channel (Q2Qc (10 # 21)) (snd l) z)) ls) <> 0 ->
  fst (fst i) * (snd (fst i) * likelihood (snd i) z) /
    (c * false_alarm + qsum (map (fun l => fst (fst l) * (snd (fst l) * likelihood (snd l) z)) ls)) =
  fst (fst i) * (snd (fst i) * channel (Q2Qc (10 # 21)) (snd i) z) /
    (c * uniform + qsum (map (fun l => fst (fst l) * (snd (fst l) * channel (Q2Qc (10 # 21)) (snd l) z)) ls)).
Proof. exact phd_weights. Qed.
Print Assumptions C131_weights.
Example C131_ex : let z := repeat false 256 in let ls := [(Q2Qc (1 # 2), 1, z)] in
  descriptor z /\ (forall l, In l ls -> descriptor (snd l)) /\
  0 * uniform + qsum (map (fun l => fst (fst l) * (snd (fst l) * channel (Q2Qc (10 # 21)) (snd l) z)) ls) <> 0.
Proof. exact weights_ex. Qed.

(** * C132: random and sampled descriptors *)

(** Bits of a random descriptor are bits of distinct draws of lrand48: bit 32 j + i is bit i of draw 7 - j. *)
Theorem C132_random_partial : forall s k, (forall v, 0 <= s v < 2 ^ 31)%Z -> descriptor (random s k) /\
  forall j i, (j < 8)%nat -> (i < 32)%nat -> nth (32 * j + i) (random s k) false = Z.testbit (s (k + 7 - j)%nat) (Z.of_nat i).
Proof. exact random_bits. Qed.
Print Assumptions C132_random_partial.
(** A sampled descriptor flips a bit iff three bits drawn are all set: one time in eight. *)
Theorem C132_sample_partial : forall s k d, (forall v, 0 <= s v < 2 ^ 31)%Z -> descriptor d -> descriptor (sample s k d) /\
  forall j i, (j < 8)%nat -> (i < 32)%nat -> nth (32 * j + i) (sample s k d) false =
    xorb (nth (32 * j + i) d false) (Z.testbit (s (k + 7 - j)%nat) (Z.of_nat i) && Z.testbit (s (k + 15 - j)%nat) (Z.of_nat i) &&
      Z.testbit (s (k + 23 - j)%nat) (Z.of_nat i)).
Proof. exact sample_bits. Qed.
Print Assumptions C132_sample_partial.
(** Eight of the bits of a random descriptor are never set, *)
Theorem C132_refuted : exists d, descriptor d /\ forall s k, (forall v, 0 <= s v < 2 ^ 31)%Z -> random s k <> d.
Proof. exact never_random. Qed.
Print Assumptions C132_refuted.
(** and never flipped by sampling: a descriptor of positive likelihood that is never sampled. *)
Theorem C132_sample_refuted : exists d e, descriptor d /\ descriptor e /\ distance d e = 1%nat /\
  forall s k, (forall v, 0 <= s v < 2 ^ 31)%Z -> sample s k d <> e.
Proof. exact never_sampled. Qed.
Print Assumptions C132_sample_refuted.
(** Of the eight equally likely values of three bits one flips: not the 1/2.1 of the likelihood. *)
Theorem C132_rate_refuted : forall s k j i, (j < 8)%nat -> (i < 31)%nat -> (forall v, 0 <= s v < 2 ^ 31)%Z ->
  let flips b := negb (eqb (nth (32 * j + i) (sample b k (repeat false 256)) false) false) in
  let put (x y z : bool) : nat -> Z := fun v =>
    (if (v =? k + 7 - j)%nat then Z.b2z x * 2 ^ Z.of_nat i else if (v =? k + 15 - j)%nat then Z.b2z y * 2 ^ Z.of_nat i
     else if (v =? k + 23 - j)%nat then Z.b2z z * 2 ^ Z.of_nat i else s v)%Z in
  length (filter (fun t => flips (put (fst (fst t)) (snd (fst t)) (snd t))) triples) = 1%nat /\ length triples = 8%nat.
Proof. exact one_in_eight. Qed.
Print Assumptions C132_rate_refuted.
Example C132_ex : (forall v : nat, 0 <= (fun _ : nat => 5) v < 2 ^ 31)%Z /\ nth 2 (random (fun _ => 5%Z) 0) false = true.
Proof. split; [intro v; lia|reflexivity]. Qed.

(** * C133: models with descriptors *)

(** Mapping a measurement and measuring the landmark keeps the descriptor, and the landmark is visible if it
    is without its descriptor. *)
Theorem C133_round_partial : forall (P L Z : Type) (m : P -> L -> bool * Z) (i : P -> Z -> L) p z,
  (forall q, snd (m p (i p q)) = q) -> desc_measure m p (desc_inverse i p z) = (fst (m p (i p (d_vec z))), z).
Proof. exact round_trip. Qed.
Print Assumptions C133_round_partial.
(** Likelihoods of landmarks and of measurements agree, the squared distance is always written. *)
Theorem C133_likelihood_partial : forall (X : Type) (g : X -> X -> Qc * Qc) a b,
  lmk_likelihood g a b = (fst (meas_likelihood g a b), Some (snd (meas_likelihood g a b))).
Proof. exact same_likelihood. Qed.
Print Assumptions C133_likelihood_partial.
(** The clutter intensity over all cells and descriptors does not add up to the expected number of false
    alarms. *)
Theorem C133_refuted : forall (Z : Type) (c : Z -> Qc) cells i l, enumerates l -> qsum (map c cells) = i -> 0 < i ->
  desc_integral i < qsum (map (fun z => qsum (map (fun d => desc_clutter c (Described z d)) l)) cells).
Proof. exact clutter_desc. Qed.
Print Assumptions C133_refuted.
Example C133_ex : qsum (map (fun _ : unit => Q2Qc 3) [tt; tt]) = Q2Qc 6 /\ 0 < Q2Qc 6.
Proof. split; reflexivity. Qed.
