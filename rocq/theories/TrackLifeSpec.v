(** The life of one particle of a track-based filter, on its own. *)
From Coq Require Import ZArith QArith Qcanon List Bool Arith.
From Verif Require Import Base QcLra ParticleModel RbRunModel LmbModel TrackRunModel.
Import ListNotations.
Local Open Scope nat_scope.

Section Life.
Context {Pose M G : Type}.
Notation tmap := (list (track G)).
Notation call := (tcall Pose M G).
Variable one : list M -> Pose -> tmap -> outcome (made G).
Variable inv : Pose -> M -> G.
Variable c : rcfg.

(** Calls with whether they resampled. *)
Definition tresampled (k : call) (s' : tfilt Pose M G) : bool :=
  match k with TUpdate (_ :: _) _ => match rocc (tRb s') with Some b => b | None => false end | _ => false end.
Fixpoint tlog (s : tfilt Pose M G) (ks : list call) : list (call * bool) :=
  match ks with
  | [] => []
  | k :: r => match tdo one inv c s k with Val s' => (k, tresampled k s') :: tlog s' r | _ => [] end
  end.

(** The measurements of the last update. *)
Definition last_seen (h : list (call * bool)) : list M :=
  fold_left (fun zs k => match fst k with TUpdate zs' _ => zs' | _ => zs end) h [].

(** A new track for measurement number k with probability pe, seen from x. *)
Definition newborn_at (x : Pose) (zs : list M) (b : nat * Qc) (t : track G) : Prop :=
  exists z, nth_error zs (fst b) = Some z /\ t = Track (snd b) [(1%Qc, inv x z)].
(** The same track, its Gaussians moved. *)
Definition moved (stat : G -> G) (t t' : track G) : Prop :=
  tP t' = tP t /\ tG t' = map (fun g => (fst g, stat (snd g))) (tG t).

Variables (n : nat) (x0 : Pose).
(** [life h i (x, tr, ts) us w]: after the calls h the particle in slot i is at x, came along tr, has the tracks ts and
    the weight w since the last resampling; us are the births waiting in the slot. *)
Inductive life : list (call * bool) -> nat -> Pose * list Pose * tmap -> list (nat * Qc) -> Qc -> Prop :=
| l_start : forall i, i < n -> life [] i (x0, [], []) [] 1
| l_threshold : forall h t i x us w, life h i x us w -> life (h ++ [(TThreshold t, false)]) i x us w
| l_predict : forall h move stat i x tr ts us w bs ts', life h i (x, tr, ts) us w ->
    Forall2 (newborn_at x (last_seen h)) (rev us) bs -> Forall2 (moved stat) (ts ++ bs) ts' ->
    life (h ++ [(TPredict move stat, false)]) i (move i x, if rkeep c then x :: tr else tr, ts') [] w
| l_nothing : forall h u i x us w, life h i x us w -> life (h ++ [(TUpdate [] u, false)]) i x us w
| l_stay : forall h zs u i x tr ts us w m, zs <> [] -> life h i (x, tr, ts) us w -> one zs x ts = Val m ->
    life (h ++ [(TUpdate zs u, false)]) i (x, tr, mMap m) (mBirths m) (mFactor m * w)
| l_copy : forall h zs u i j x tr ts us w m xi tri tsi usi wi mi, zs <> [] -> life h j (x, tr, ts) us w -> one zs x ts = Val m ->
    life h i (xi, tri, tsi) usi wi -> one zs xi tsi = Val mi ->
    life (h ++ [(TUpdate zs u, true)]) i (x, tr, mMap m) (mBirths mi) 1.

(** Every particle has a life that explains it; the weights are those of the lives up to a common factor. *)
Definition lived (h : list (call * bool)) (s : tfilt Pose M G) : Prop :=
  length (pset (rpf (tRb s))) = n /\ length (tSlots s) = n /\ tZ s = last_seen h /\ exists k v, (0 < k)%Qc /\
  forall i p, nth_error (pset (rpf (tRb s))) i = Some p -> exists ts us,
    life h i (ppose p, pprev p, ts) us (v i) /\ pdata p = Some ts /\ nth_error (tSlots s) i = Some us /\ (0 < v i)%Qc /\ pw p = Some (k * v i)%Qc.
End Life.

(** The same calls for the filters with maps of any kind (RbRunModel). *)
Definition same_call {Pose M G} (k : tcall Pose M G) (r : rcall Pose (list (track G))) : Prop :=
  match k, r with
  | TPredict move _, RPredict _ move' _ => move' = move
  | TUpdate zs u, RUpdate nz _ _ u' => nz = length zs /\ u' = u
  | TThreshold t, RThreshold t' => t' = t
  | _, _ => False
  end.
