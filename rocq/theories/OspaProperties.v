(** C35-C37, C60: OSPA and COLA errors. *)
From Coq Require Import ZArith List Bool Arith QArith Qcanon Lia Permutation.
From Verif Require Import Base ListUtil QcLra OspaModel OspaSpec OspaProofs2 OspaProofs4.
Import ListNotations.
Local Open Scope Z_scope.

(** Distance on a line, for the examples. *)
Definition line (x y : Z) : Z := Z.abs (x - y).

Lemma line_metric : metric line.
Proof. unfold metric, line. repeat split; intros; lia. Qed.

(** C35: with p = 1 the error is the least cost of a matching divided by the larger
    cardinality. *)
Theorem C35_ospa_least : forall (A : Type) (d : A -> A -> Z) c X Y, X ++ Y <> [] ->
  exists v, least d 1 c X Y v /\ ospaError d c 1 X Y = Val (QcZ v / QcN (Nat.max (length X) (length Y)))%Qc.
Proof. exact @ospa_1. Qed.
Print Assumptions C35_ospa_least.

Example C35_least_example : [0; 10; 4] ++ [11; 20; 3; 5] <> [] /\ omap this (ospaError line 7 1 [0; 10; 4] [11; 20; 3; 5]) = Val 3%Q.
Proof. split; [discriminate|vm_compute; reflexivity]. Qed.

(** C35: what calcError and getOptAssignment report.  M are the pairs below the cut-off: their
    distances are e_dist, all other elements of the larger set cost c each, which is e_card
    (all goes to e_dist if e_card is null); R are the reported pairs.  M and R are least. *)
Theorem C35_ospa_parts : forall (A : Type) (d : A -> A -> Z) c X Y, exists o M R,
  construct d c X Y = Val o /\
  matching (length X) (length Y) M /\ (forall ij, In ij M -> pair_cost d c X Y ij < c) /\
  (forall M', matching (length X) (length Y) M' -> match_cost d 1 c X Y M <= match_cost d 1 c X Y M') /\
  (X ++ Y <> [] -> forall p wd wc, calcError o p wd wc =
     Val ((QcZ (match_cost d p c X Y M) / QcN (Nat.max (length X) (length Y)))%Qc,
          (if wd then total_of (map (pair_cost d c X Y) M) +
             (if wc then 0 else c * (Z.of_nat (Nat.max (length X) (length Y)) - Z.of_nat (length M))) else 0),
          (if wc then c * (Z.of_nat (Nat.max (length X) (length Y)) - Z.of_nat (length M)) else 0))) /\
  (X ++ Y = [] -> forall p wd wc, calcError o p wd wc = UB DivByZero) /\
  matching (length X) (length Y) R /\ (forall p, match_cost d p c X Y R = match_cost d p c X Y M) /\
  (forall i, exists r, getOptAssignment o i = Val r /\
     forall j v, r = Some (j, v) <-> In (i, j) R /\ v = pair_cost d c X Y (i, j)) /\
  oc o = c /\ on o = Nat.max (length X) (length Y).
Proof. exact @ospa_main. Qed.
Print Assumptions C35_ospa_parts.

Example C35_parts_example :
  omap (fun o => (omap (fun r => (this (fst (fst r)), snd (fst r), snd r)) (calcError o 1 true true),
                  map (getOptAssignment o) [0; 1; 2; 3]%nat)) (construct line 7 [0; 10; 4] [11; 20; 3; 5]) =
  Val (Val (3%Q, 5, 7), [Val (Some (2%nat, 3)); Val (Some (0%nat, 1)); Val (Some (3%nat, 1)); Val None]).
Proof. vm_compute. reflexivity. Qed.

(** C35: range. *)
Theorem C35_ospa_range : forall (A : Type) (d : A -> A -> Z) c X Y, 0 <= c -> (forall x y, 0 <= d x y) -> X ++ Y <> [] ->
  exists e, ospaError d c 1 X Y = Val e /\ (0 <= e)%Qc /\ (e <= QcZ c)%Qc.
Proof. exact @ospa_range. Qed.
Print Assumptions C35_ospa_range.

(** C35: symmetry. *)
Theorem C35_ospa_symmetric : forall (A : Type) (d : A -> A -> Z) c X Y, X ++ Y <> [] ->
  ospaError d c 1 X Y = ospaError (fun x y => d y x) c 1 Y X.
Proof. exact @ospa_symmetric. Qed.
Print Assumptions C35_ospa_symmetric.

(** C35: zero exactly for equal multisets. *)
Theorem C35_ospa_zero : forall (A : Type) (d : A -> A -> Z) c X Y, 0 < c -> metric d -> X ++ Y <> [] ->
  (ospaError d c 1 X Y = Val 0%Qc <-> Permutation X Y).
Proof. exact @ospa_zero. Qed.
Print Assumptions C35_ospa_zero.

Example C35_range_symmetric_zero_example :
  0 <= 7 /\ (forall x y, 0 <= line x y) /\ 0 < 7 /\ metric line /\
  omap this (ospaError line 7 1 [11; 20; 3; 5] [0; 10; 4]) = Val 3%Q /\
  omap this (ospaError line 7 1 [11; 20; 3; 5] [3; 11; 5; 20]) = Val 0%Q /\
  omap this (ospaError line 7 1 [] [3; 11; 5; 20]) = Val 7%Q.
Proof.
  split; [lia|]. split; [unfold line; lia|]. split; [lia|]. split; [apply line_metric|].
  split; [vm_compute; reflexivity|]. split; vm_compute; reflexivity.
Qed.

(** C36 as stated fails: for p = 2 a matching with a smaller sum of squares than the returned
    one exists, because the assignment minimises the sum of the distances. *)
Theorem C36_refuted : exists (d : Z -> Z -> Z) c X Y e M, metric d /\ 0 < c /\ ospaError d c 2 X Y = Val e /\
  matching (length X) (length Y) M /\ (QcZ (match_cost d 2 c X Y M) < e * QcN (Nat.max (length X) (length Y)))%Qc.
Proof.
  exists line, 19, [0; 10], [10; 20], (Q2Qc (361 # 2)), [(0, 0); (1, 1)]%nat.
  split; [apply line_metric|]. split; [lia|]. split.
  - assert (E : omap this (ospaError line 19 2 [0; 10] [10; 20]) = Val (361 # 2)%Q) by (vm_compute; reflexivity).
    destruct (ospaError line 19 2 [0; 10] [10; 20]) as [q| |]; try discriminate. f_equal. apply Qc_is_canon. injection E as E.
    rewrite E. vm_compute. reflexivity.
  - split; [|vm_compute; reflexivity]. split; [|split].
    + repeat constructor; simpl; intuition discriminate.
    + repeat constructor; simpl; intuition discriminate.
    + intros i j [H|[H|[]]]; injection H as <- <-; simpl; lia.
Qed.
Print Assumptions C36_refuted.

(** C36: for p = 2 the error even depends on the order in which the elements of a set are
    listed, and on which set comes first. *)
Theorem C36_order_refuted : exists (d : Z -> Z -> Z) c X X' Y, metric d /\ 0 < c /\ Permutation X X' /\
  ospaError d c 2 X Y <> ospaError d c 2 X' Y /\ ospaError d c 2 X Y <> ospaError d c 2 Y X.
Proof.
  exists line, 4, [0; 0; 1], [1; 0; 0], [2; 0; 3].
  split; [apply line_metric|]. split; [lia|]. split; [apply (Permutation_rev [0; 0; 1])|].
  assert (E1 : omap this (ospaError line 4 2 [0; 0; 1] [2; 0; 3]) = Val (8 # 3)%Q) by (vm_compute; reflexivity).
  assert (E2 : omap this (ospaError line 4 2 [1; 0; 0] [2; 0; 3]) = Val (10 # 3)%Q) by (vm_compute; reflexivity).
  assert (E3 : omap this (ospaError line 4 2 [2; 0; 3] [0; 0; 1]) = Val (10 # 3)%Q) by (vm_compute; reflexivity).
  split; intros E; rewrite E in E1; congruence.
Qed.
Print Assumptions C36_order_refuted.

(** C36, what holds: for order p = q + 1 the sum of p-th powers is at most n^q times the least
    one, n the larger cardinality; so the error is at most n^((p-1)/p) times the least error,
    and it is least for p = 1 or n = 1.  The missing part, optimality for p > 1, is false. *)
Theorem C36_ospa_order_partial : forall (A : Type) (d : A -> A -> Z) c X Y q, 0 <= c -> (forall x y, 0 <= d x y) -> X ++ Y <> [] ->
  exists e, ospaError d c (S q) X Y = Val e /\
  forall M, matching (length X) (length Y) M ->
    (e * QcN (Nat.max (length X) (length Y)) <=
     QcZ (Z.of_nat (Nat.max (length X) (length Y)) ^ Z.of_nat q * match_cost d (S q) c X Y M))%Qc.
Proof. exact @ospa_order_bound. Qed.
Print Assumptions C36_ospa_order_partial.

Example C36_order_example :
  omap (fun e => this (e * QcN 2)%Qc) (ospaError line 19 2 [0; 10] [10; 20]) = Val 361%Q /\
  Z.of_nat 2 ^ Z.of_nat 1 * match_cost line 2 19 [0; 10] [10; 20] [(0, 0); (1, 1)]%nat = 400.
Proof. split; vm_compute; reflexivity. Qed.

(** C37: COLA is the OSPA error times the larger cardinality over the cut-off (here p-th
    powers: times n over c^p). *)
Theorem C37_cola_value : forall (A : Type) (d : A -> A -> Z) c X Y p, X ++ Y <> [] -> c <> 0 ->
  exists e, ospaError d c p X Y = Val e /\
    colaErr d c p X Y = Val (e * QcN (Nat.max (length X) (length Y)) / QcZ (c ^ Z.of_nat p))%Qc.
Proof. exact @cola_value. Qed.
Print Assumptions C37_cola_value.

(** C37: for p = 1 COLA is the least cost of a matching in units of the cut-off. *)
Theorem C37_cola_least : forall (A : Type) (d : A -> A -> Z) c X Y, X ++ Y <> [] -> c <> 0 ->
  exists v, least d 1 c X Y v /\ colaErr d c 1 X Y = Val (QcZ v / QcZ c)%Qc.
Proof. exact @cola_1. Qed.
Print Assumptions C37_cola_least.

(** C37: symmetry and zero. *)
Theorem C37_cola_symmetric : forall (A : Type) (d : A -> A -> Z) c X Y, X ++ Y <> [] -> c <> 0 ->
  colaErr d c 1 X Y = colaErr (fun x y => d y x) c 1 Y X.
Proof. exact @cola_symmetric. Qed.
Print Assumptions C37_cola_symmetric.

Theorem C37_cola_zero : forall (A : Type) (d : A -> A -> Z) c X Y, 0 < c -> metric d -> X ++ Y <> [] ->
  (colaErr d c 1 X Y = Val 0%Qc <-> Permutation X Y).
Proof. exact @cola_zero. Qed.
Print Assumptions C37_cola_zero.

Example C37_example :
  omap this (ospaError line 7 1 [0; 10; 4] [11; 20; 3; 5]) = Val 3%Q /\
  omap this (colaErr line 7 1 [0; 10; 4] [11; 20; 3; 5]) = Val (12 # 7)%Q /\
  omap this (colaErr line 7 1 [11; 20; 3; 5] [0; 10; 4]) = Val (12 # 7)%Q /\
  omap this (colaErr line 7 1 [0; 10; 4] [4; 0; 10]) = Val 0%Q.
Proof. split; [vm_compute; reflexivity|]. split; [vm_compute; reflexivity|]. split; vm_compute; reflexivity. Qed.

(** C60: triangle inequalities for p = 1. *)
Theorem C60_ospa_triangle : forall (A : Type) (d : A -> A -> Z) c X Y Z0, 0 <= c -> (forall x y, 0 <= d x y) ->
  (forall x y z, d x z <= d x y + d y z) -> X ++ Y <> [] -> Y ++ Z0 <> [] -> X ++ Z0 <> [] ->
  exists e f g, ospaError d c 1 X Y = Val e /\ ospaError d c 1 Y Z0 = Val f /\ ospaError d c 1 X Z0 = Val g /\ (g <= e + f)%Qc.
Proof. exact @ospa_triangle. Qed.
Print Assumptions C60_ospa_triangle.

Theorem C60_cola_triangle : forall (A : Type) (d : A -> A -> Z) c X Y Z0, 0 < c -> (forall x y, 0 <= d x y) ->
  (forall x y z, d x z <= d x y + d y z) -> X ++ Y <> [] -> Y ++ Z0 <> [] -> X ++ Z0 <> [] ->
  exists e f g, colaErr d c 1 X Y = Val e /\ colaErr d c 1 Y Z0 = Val f /\ colaErr d c 1 X Z0 = Val g /\ (g <= e + f)%Qc.
Proof. exact @cola_triangle. Qed.
Print Assumptions C60_cola_triangle.

(** Here the middle set is larger than the others. *)
Example C60_example :
  (forall x y z, line x z <= line x y + line y z) /\
  omap this (ospaError line 7 1 [0; 10] [1; 12; 40]) = Val (10 # 3)%Q /\
  omap this (ospaError line 7 1 [1; 12; 40] [6; 10]) = Val (14 # 3)%Q /\
  omap this (ospaError line 7 1 [0; 10] [6; 10]) = Val 3%Q.
Proof. split; [apply line_metric|]. split; [vm_compute; reflexivity|]. split; vm_compute; reflexivity. Qed.
