(** C10-C11: HungarianMethod::run (include/HungarianMethod.hpp). *)
From Coq Require Import ZArith List Bool Arith Lia Permutation.
From Verif Require Import Base HungarianModel AssignSpec HungarianProofs3.
Import ListNotations.
Local Open Scope Z_scope.

(** C10: for every size and matrix and both directions run terminates normally,
    returns true, soln is a complete one-to-one assignment, cost is its total in
    the caller's matrix, and no assignment has a better total. *)
Theorem C10_hungarian_optimal : forall C n maximize, exists C' soln,
  hungarian C n maximize = Val (C', Some (soln, score C soln)) /\
  optimal maximize n C soln.
Proof. exact hungarian_optimal. Qed.
Print Assumptions C10_hungarian_optimal.

(** C11: the caller's matrix is unchanged afterwards. *)
Theorem C11_hungarian_restores : forall C n maximize C' r,
  hungarian C n maximize = Val (C', r) -> r <> None /\ forall x y, C' x y = C x y.
Proof. exact hungarian_restores. Qed.
Print Assumptions C11_hungarian_restores.

(** A 4x4 matrix with negative entries and a conflict in the initial matching. *)
Definition exC : mat := of_rows [[7; -4; 2; 8]; [6; 1; 5; 8]; [-3; 9; 9; 7]; [8; 3; 4; 8]].

Example C10_example_max :
  omap snd (hungarian exC 4 true) = Val (Some ([3; 2; 1; 0]%nat, 30)).
Proof. vm_compute. reflexivity. Qed.

Example C10_example_min :
  omap snd (hungarian exC 4 false) = Val (Some ([1; 3; 0; 2]%nat, 5)).
Proof. vm_compute. reflexivity. Qed.

Example C10_example_assignment : assignment 4 [3; 2; 1; 0]%nat /\ score exC [3; 2; 1; 0]%nat = 30.
Proof.
  split; [|vm_compute; reflexivity].
  unfold assignment. simpl. symmetry.
  change [3; 2; 1; 0]%nat with (rev [0; 1; 2; 3]%nat). apply Permutation_rev.
Qed.

Example C11_example : omap (fun r => map (fun x => map (fst r x) (seq 0 5)) (seq 0 5)) (hungarian exC 4 false) =
  Val (map (fun x => map (exC x) (seq 0 5)) (seq 0 5)).
Proof. vm_compute. reflexivity. Qed.
