(** Concrete map updates for the examples of FastRunProperties. *)
From Coq Require Import ZArith QArith Qcanon List Bool Arith Lia.
From Verif Require Import Base ListUtil QcLra ParticleModel ParticleSpec FastRunModel FastRunSpec.
Import ListNotations.
Local Open Scope nat_scope.

(** Slot k gets weight, map and candidates from entry k; particles as in include/FastSLAM.hpp:578-724. *)
Definition given (v : list (Qc * nat * list nat)) : mapupd nat nat nat := fun _ ps cs =>
  if (length ps =? length v) && (length v <=? length cs) then
    Val (map (fun x => PT (pid (fst x)) (pparent (fst x)) (Some (fst (fst (snd x)))) (ppose (fst x)) (pprev (fst x)) (Some (snd (fst (snd x)))))
             (combine ps v), map snd v ++ skipn (length v) cs)
  else UB OutOfBounds.
(** Particle 0 is split in two, include/FastSLAM.hpp:556-571. *)
Definition one_more : mapupd nat nat nat := fun _ ps cs =>
  match ps with
  | p :: _ => if length ps <? length cs then Val (ps ++ [setId p (length ps)], cs) else UB OutOfBounds
  | [] => UB OutOfBounds
  end.
Definition half : Qc := Q2Qc (1 # 2).
Definition view (s : fsl nat nat nat) := (map pdata (pset (fpf s)), firstn (length (pset (fpf s))) (fcand s), focc s).
Definition start2 := @fs_new nat nat nat 2 7 0.
Definition first_calls : list (call nat nat nat) :=
  [SetThreshold (QcN 2); Predict (fun i x => x + i) (fun d => S d); Update 3 (given [(QcN 0, 10, [10]); (QcN 1, 11, [11])]) half].

Lemma combine_nth_some : forall A B (l : list A) (m : list B) i x, nth_error (combine l m) i = Some x -> nth_error l i = Some (fst x).
Proof.
  induction l as [|a l IH]; intros [|b m] [|i] x H; try discriminate; cbn in *; [now injection H as <-|]. now apply (IH m).
Qed.
Lemma given_faithful : forall c n v u, faithful c (Update n (given v) u).
Proof.
  intros c n v u o ps cs ps' cs' H. unfold given in H.
  destruct (Nat.eqb_spec (length ps) (length v)) as [E|]; [|discriminate].
  destruct (Nat.leb_spec (length v) (length cs)) as [L|]; [|discriminate]. cbn [andb] in H. injection H as <- <-.
  split; [split|].
  - rewrite map_length, combine_length. lia.
  - intros i q Hq. rewrite nth_error_map in Hq. destruct (nth_error (combine ps v) i) as [x|] eqn:Ex; [|discriminate].
    cbn in Hq. injection Hq as <-. apply combine_nth_some in Ex. now rewrite Ex.
  - rewrite app_length, !map_length, skipn_length, combine_length. split; [lia|]. intros _. lia.
Qed.
Lemma one_more_faithful : forall c n u, faithful c (Update n one_more u).
Proof.
  intros c n u o ps cs ps' cs' H. unfold one_more in H. destruct ps as [|p r] eqn:Ep; [discriminate|]. rewrite <- Ep in *.
  destruct (Nat.ltb_spec (length ps) (length cs)) as [L|]; [|discriminate]. injection H as <- <-.
  split; [split|].
  - rewrite app_length. lia.
  - intros i q Hq. destruct (Nat.lt_ge_cases i (length ps)) as [Hi|Hi].
    + rewrite nth_error_app1 in Hq by exact Hi. now rewrite Hq.
    + rewrite nth_error_app2 in Hq by exact Hi. rewrite (proj2 (nth_error_None ps i) Hi).
      destruct (i - length ps) as [|k] eqn:Ek; [|destruct k; discriminate]. cbn in Hq. injection Hq as <-. cbn. lia.
  - split; [reflexivity|]. rewrite app_length. cbn. lia.
Qed.

Lemma given_keeps : forall n v u, keeps_paths (Update n (given v) u).
Proof.
  intros n v u o ps cs ps' cs' H _ q Hq. unfold given in H. destruct (_ && _); [|discriminate]. injection H as <- <-.
  apply in_map_iff in Hq as (x & <- & Hx). cbn. split; [discriminate|]. exists (fst x). split; [|auto].
  destruct x as [a b]. exact (in_combine_l _ _ _ _ Hx).
Qed.
Lemma one_more_keeps : forall n u, keeps_paths (Update n one_more u).
Proof.
  intros n u o ps cs ps' cs' H Hd q Hq. unfold one_more in H. destruct ps as [|p r] eqn:Ep; [discriminate|]. rewrite <- Ep in *.
  destruct (_ <? _); [|discriminate]. injection H as <- <-. assert (Hp : In p ps) by (rewrite Ep; now left).
  apply in_app_or in Hq as [Hq|[<-|[]]]; [split; [exact (Hd q Hq)|eauto]|]. cbn. split; [exact (Hd p Hp)|eauto].
Qed.
Lemma half_in : (0 <= half < 1)%Qc.
Proof. split; [discriminate|reflexivity]. Qed.

(** Any sequence of calls that is defined has a log. *)
Fixpoint log_of {P D C} (c : fcfg) (s : fsl P D C) (ks : list (call P D C)) : list (nat * bool) :=
  match ks with
  | [] => []
  | k :: r => match do_call c s k with Val s1 => entry k s1 ++ log_of c s1 r | _ => [] end
  end.
Lemma run_logged : forall P D C (c : fcfg) (ks : list (call P D C)) s s', run c s ks = Val s' -> logged c s ks (log_of c s ks) s'.
Proof.
  intros P D C c. induction ks as [|k r IH]; intros s s' H; cbn [run log_of] in *; [injection H as <-; constructor|].
  destruct (do_call c s k) as [s1| |] eqn:E; try discriminate. cbn [obind] in H. econstructor; [exact E|]. now apply IH.
Qed.
