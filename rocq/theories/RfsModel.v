(** Model of the multi-feature measurement likelihood: rfsMeasurementLikelihood of RBPHDFilter
    (include/RBPHDFilter.hpp:826-1000).  The loop over the partitions is the same text in
    RBCBMeMBerFilter (include/RBCBMeMBerFilter.hpp:668-800), RBLMBFilter
    (include/RBLMBFilter.hpp:889-1038) and RFSPSOSLAM (include/RFSPSOSLAM.hpp:738-941), except that
    the last one has the test for small partitions commented out (828-829) and uses Murty's
    algorithm for all of them: the size up to which permutations are used is [lim], 8 in the
    filters and 0 here.

    Simplifications.  Numbers are rationals and products are formed directly: the code adds
    logarithms and takes exp, with -1000 for log 0 (its exp is 0 in double precision).
    L is the table after gating (include/RBPHDFilter.hpp:849-866), pd the list evalPtPd, cl the
    clutter intensities (872-874).  Partitioning only depends on which entries exceed
    MIN_LIKELIHOOD = 0 (include/CostMatrix.hpp:104): the integer model of CostMatrixGeneral is
    run on the table of zeros and ones [sig]; the entries of a partition are those of L at the
    returned row and column indices (C16).  The successive results of Murty's algorithm are a
    function [kbest] of the extended matrix. *)
From Coq Require Import ZArith List Bool Arith QArith Qcanon.
From Verif Require Import Base ListUtil QcLra PermanentSpec PartitionModel LexModel.
Import ListNotations.
Local Open Scope nat_scope.

Section Likelihood.
Variable L : nat -> nat -> Qc.
Variable pd : nat -> Qc.
Variable cl : nat -> Qc.
Variable lim : nat.
Variable kbest : nat -> nat -> (nat -> nat -> Qc) -> list (list nat).

(** Entries above MIN_LIKELIHOOD, src/CostMatrix.cpp:101. *)
Definition sig (i j : nat) : Z := if Qcltb 0 (L i j) then 1%Z else 0%Z.

(** The zero partition, include/RBPHDFilter.hpp:895-906. *)
Definition zero_likelihood (il jl : list nat) : Qc :=
  fold_left Qcmult (map cl jl) (fold_left Qcmult (map pd il) 1%Qc).

(** One permutation, include/RBPHDFilter.hpp:976-989, for an array o of the size declared in 969. *)
Definition perm_weight (il jl o : list nat) : outcome Qc :=
  let nR := length il in
  let nC := length jl in
  if length o =? nR + nC then
    let d := fold_left (fun v a => if nth a o 0 <? nC
                 then (v * L (nth a il 0%nat) (nth (nth a o 0%nat) jl 0%nat))%Qc
                 else (v * (1 - pd (nth a il 0%nat)))%Qc) (seq 0 nR) 1%Qc in
    Val (fold_left (fun v a => if nth a o 0 <? nC then (v * cl (nth (nth a o 0%nat) jl 0%nat))%Qc else v)
           (seq nR nC) d)
  else UB OutOfBounds.

(** The loop over the permutations, include/RBPHDFilter.hpp:972-992. *)
Fixpoint lex_sum (fuel : nat) (il jl : list nat) (s : lex) : outcome Qc :=
  match fuel with
  | 0 => OutOfFuel
  | S f =>
    let* r := next s in
    let '(s', n, o) := r in
    if n =? 0 then Val 0%Qc
    else
      let* w := perm_weight il jl o in
      let* v := lex_sum f il jl s' in
      Val (w + v)%Qc
  end.

(** The extended matrix, include/RBPHDFilter.hpp:911-950. *)
Definition extended (il jl : list nat) (r c : nat) : Qc :=
  let nR := length il in
  let nC := length jl in
  if r <? nR then
    if c <? nC then L (nth r il 0%nat) (nth c jl 0%nat)
    else if r =? c - nC then (1 - pd (nth r il 0%nat))%Qc else 0%Qc
  else
    if c <? nC then (if r - nR =? c then cl (nth c jl 0%nat) else 0%Qc)
    else 1%Qc.

(** The loop over the results of Murty's algorithm, include/RBPHDFilter.hpp:957-962: ends when
    there is none left or its logarithm is that of zero. *)
Fixpoint murty_sum (k : nat) (E : nat -> nat -> Qc) (outs : list (list nat)) : Qc :=
  match k, outs with
  | S k', a :: r =>
    let w := product_along E 0 a in
    if Qc_eq_dec w 0%Qc then 0%Qc else (w + murty_sum k' E r)%Qc
  | _, _ => 0%Qc
  end.

(** partition_likelihood, include/RBPHDFilter.hpp:893-996.  The number of permutations of a
    block is less than (columns + 1) ^ rows + 1, the fuel of the loop. *)
Definition block_likelihood (murty flag : bool) (il jl : list nat) : outcome Qc :=
  if negb flag then Val (zero_likelihood il jl)
  else if murty then Val (murty_sum 200 (extended il jl) (kbest (length il) (length jl) (extended il jl)))
  else lex_sum (S (S (length jl) ^ length il)) il jl (lex_new (length il) (length jl) true).

(** The loop over the partitions, include/RBPHDFilter.hpp:877-998; lim is the 8 of line 889. *)
Fixpoint blocks_likelihood (g : cgen) (ps : list nat) (l : Qc) : outcome Qc :=
  match ps with
  | [] => Val l
  | p :: r =>
    let* sz := getPartitionSize g p in
    let '(nR, nC, flag) := sz in
    let useMurty := negb ((nR + nC <=? lim) || negb flag) in
    let* got := getPartition g p useMurty in
    let* v := block_likelihood useMurty (gflag (snd got)) (grows (snd got)) (gcols (snd got)) in
    blocks_likelihood (fst got) r (l * v)%Qc
  end.

(** rfsMeasurementLikelihood, include/RBPHDFilter.hpp:826-1000; [integral] is
    clutterIntensityIntegral( nZ ). *)
Definition rfs_likelihood (cc : nat -> nat) (ncc : nat) (integral : Qc) (nM nZ : nat) : outcome Qc :=
  let* r := partition cc ncc (cg_new sig nM nZ 0%Z) in
  let* l := blocks_likelihood (fst r) (seq 0 (snd r)) 1%Qc in
  if Qc_eq_dec integral 0%Qc then UB DivByZero else Val (l / integral)%Qc.
End Likelihood.
