(** Model of class Particle (include/Particle.hpp:46-245) and class ParticleFilter
    (include/ParticleFilter.hpp:49-502): particle set, weights and resampling.

    Simplifications: double is an exact rational or NaN (None); a division by zero
    gives NaN for every numerator (C++ gives an infinity for a nonzero one);
    nParticles_ is the length of particleSet_ (every member function leaves the
    two equal); int / unsigned counters are unbounded; shared pointers to
    particles are the particles, since no two slots ever share one; the extra
    data is a value or NULL (copy() makes a deep copy). *)
From Coq Require Import ZArith QArith Qcanon List Bool Arith.
From Verif Require Import Base ListUtil QcLra.
Import ListNotations.
Local Open Scope Qc_scope.

(** double: a number or NaN (not a source type; see the simplifications above);
    include/ParticleFilter.hpp:365,417,445,450. *)
Definition num := option Qc.
(** operator+ on double, as used in include/ParticleFilter.hpp:365,417,445,450. *)
Definition nadd (a b : num) : num :=
  match a, b with Some x, Some y => Some (x + y) | _, _ => None end.
(** operator* on double, include/ParticleFilter.hpp:417. *)
Definition nmul (a b : num) : num :=
  match a, b with Some x, Some y => Some (x * y) | _, _ => None end.
(** operator/ on double, include/ParticleFilter.hpp:368,419,420. *)
Definition ndiv (a b : num) : num :=
  match a, b with
  | Some x, Some y => if Qc_eq_dec y 0 then None else Some (x / y)
  | _, _ => None
  end.
(** operator> on double, include/ParticleFilter.hpp:420,443: false on NaN. *)
Definition ngt (a b : num) : bool :=
  match a, b with Some x, Some y => Qcltb y x | _, _ => false end.

Section PF.
(** Pose type and extra data type, the template parameters of include/Particle.hpp:46. *)
Variables Pose Data : Type.

(** Data members of Particle, include/Particle.hpp:145-148, of its base Trajectory,
    include/Trajectory.hpp:56 ([pprev]: the chain of poses behind prev, latest first),
    and the pose itself. *)
Record particle := PT { pid : nat; pparent : nat; pw : num; ppose : Pose;
                        pprev : list Pose; pdata : option Data }.

(** Data members of ParticleFilter, include/ParticleFilter.hpp:199-206.  The
    thresholds are None while they have not been initialised. *)
Record pf := PF { pset : list particle; effT : option num; effPct : option num }.

(** Particle::setWeight, include/Particle.hpp:185-190. *)
Definition setWeight (p : particle) (w : num) : particle :=
  PT (pid p) (pparent p) w (ppose p) (pprev p) (pdata p).
(** Particle::setId, include/Particle.hpp:207-210. *)
Definition setId (p : particle) (i : nat) : particle :=
  PT i (pparent p) (pw p) (ppose p) (pprev p) (pdata p).
(** Particle::setParentId, include/Particle.hpp:212-215. *)
Definition setParentId (p : particle) (i : nat) : particle :=
  PT (pid p) i (pw p) (ppose p) (pprev p) (pdata p).
(** Particle::setData, include/Particle.hpp:231-235. *)
Definition setData (p : particle) (d : option Data) : particle :=
  PT (pid p) (pparent p) (pw p) (ppose p) (pprev p) d.

(** Particle::copy, include/Particle.hpp:217-223: *data_ is dereferenced. *)
Definition copy (p : particle) : outcome particle :=
  match pdata p with
  | None => UB NullDeref
  | Some d => Val (PT (pid p) (pparent p) (pw p) (ppose p) (pprev p) (Some d))
  end.

(** ParticleFilter(), include/ParticleFilter.hpp:219-225. *)
Definition pf_empty : pf := PF [] None None.

(** addParticles, include/ParticleFilter.hpp:246-276; [x0] is *initState or the zero pose. *)
Definition addParticles (s : pf) (n : nat) (x0 : Pose) (w : Qc) : pf :=
  PF (pset s ++ map (fun i => PT i i (Some (if Qclt_le_dec w 0 then 0 else w)) x0 [] None) (seq 0 n))
     (effT s) (effPct s).

(** ParticleFilter(int n, TPose pointer), include/ParticleFilter.hpp:228-244. *)
Definition pf_new (n : nat) (x0 : Pose) : pf :=
  let s := addParticles pf_empty n x0 1 in
  PF (pset s) (Some (Some (QcN n / QcN 4))) None.

(** copyParticle, include/ParticleFilter.hpp:278-301; [w] is None for a negative weight argument. *)
Definition copyParticle (s : pf) (idx n : nat) (w : option Qc) : outcome pf :=
  let* p := of_option (if Nat.ltb idx (length (pset s) + n) then NullDeref else OutOfBounds)
                      (nth_error (pset s) idx) in
  let wt := match w with None => pw p | Some x => Some x end in
  let p' := match w with None => p | Some x => setWeight p (Some x) end in
  if Nat.eqb n 0 then Val (PF (upd (pset s) idx p') (effT s) (effPct s))
  else
    let* c := copy p' in
    Val (PF (upd (pset s) idx p' ++
             map (fun i => setParentId (setId (setWeight c wt) (length (pset s) + i)) (pparent p')) (seq 0 n))
            (effT s) (effPct s)).

(** setEffectiveParticleCountThreshold, include/ParticleFilter.hpp:394-399. *)
Definition setEffectiveParticleCountThreshold (s : pf) (t : Qc) : pf :=
  PF (pset s) (Some (Some t)) (Some (ndiv (Some t) (Some (QcN (length (pset s)))))).

(** The running sums in include/ParticleFilter.hpp:363-366,414-418. *)
Definition nsum (l : list num) : num := fold_left nadd l (Some 0).

(** normalizeWeights, include/ParticleFilter.hpp:360-371. *)
Definition normalizeWeights (l : list particle) : list particle :=
  let sum := nsum (map pw l) in
  map (fun p => setWeight p (ndiv (pw p) sum)) l.

(** The while loop in include/ParticleFilter.hpp:443-447: next index and cumulative
    weight; [rest] are the weights after particle idx. *)
Fixpoint advance (sp : num) (idx : nat) (cum : num) (rest : list num) : outcome (nat * num * list num) :=
  if ngt sp cum then
    match rest with
    | [] => UB OutOfBounds
    | w :: r => advance sp (S idx) (nadd cum w) r
    end
  else Val (idx, cum, rest).

(** The sampling loop, include/ParticleFilter.hpp:441-452: the first k entries of sampled_idx. *)
Fixpoint sample_loop (k : nat) (sp interval : num) (idx : nat) (cum : num) (rest : list num)
  : outcome (list nat) :=
  match k with
  | O => Val []
  | S k' =>
    let* r := advance sp idx cum rest in
    let '(idx', cum', rest') := r in
    let* l := sample_loop k' (nadd sp interval) interval idx' cum' rest' in
    Val (idx' :: l)
  end.

(** Sampler settings and sampling, include/ParticleFilter.hpp:427-452; [u] is the
    value returned by drand48(). *)
Definition draw (ws : list num) (n : nat) (u : Qc) : outcome (list nat) :=
  match ws with
  | [] => UB OutOfBounds
  | w0 :: rest =>
    let interval := ndiv (Some 1) (Some (QcN n)) in
    let offset := nmul interval (Some u) in
    sample_loop n offset interval 0 w0 rest
  end.

(** The while loop in include/ParticleFilter.hpp:477-480; [flags] are the entries
    of flag_particle_sampled from index next on. *)
Fixpoint skip_sampled (next : nat) (flags : list bool) : outcome nat :=
  match flags with
  | [] => UB OutOfBounds
  | true :: r => skip_sampled (S next) r
  | false :: _ => Val next
  end.

(** The copying loop, include/ParticleFilter.hpp:455-489: [prev] is idx_prev with
    None in the first iteration. *)
Fixpoint copy_loop (n : nat) (flags : list bool) (sampled : list nat) (prev : option nat) (next : nat)
  (l : list particle) : outcome (list particle) :=
  match sampled with
  | [] => Val l
  | idx :: r =>
    let firstTime := match prev with None => true | Some j => negb (Nat.eqb idx j) end in
    let* p := of_option OutOfBounds (nth_error l idx) in
    if Nat.ltb idx n && firstTime then
      copy_loop n flags r (Some idx) next (upd l idx (setParentId p (pid p)))
    else
      let* nx := if Nat.ltb next (length l) then skip_sampled next (skipn next flags) else Val next in
      let* c := copy p in
      if Nat.ltb nx (length l) then
        copy_loop n flags r (Some idx) (S nx) (upd l nx (setParentId c (pid p)))
      else UB OutOfBounds
  end.

(** flag_particle_sampled, include/ParticleFilter.hpp:436,450. *)
Definition flags_of (N : nat) (sampled : list nat) : list bool :=
  map (fun i => existsb (Nat.eqb i) sampled) (seq 0 N).

(** The check of the effective number of particles, include/ParticleFilter.hpp:412-423:
    true when no resampling is needed. *)
Definition enough (s : pf) (l : list particle) : outcome bool :=
  let neff := ndiv (Some 1) (nsum (map (fun p => nmul (pw p) (pw p)) l)) in
  let* t := of_option Uninit (effT s) in
  if ngt neff t then
    let* pct := of_option Uninit (effPct s) in
    Val (ngt (ndiv neff (Some (QcN (length l)))) pct)
  else Val false.

(** Number of particles to sample, include/ParticleFilter.hpp:425-426. *)
Definition sample_count (n N : nat) : nat := if Nat.eqb n 0 || Nat.ltb N n then N else n.

(** The part of resample after the check, include/ParticleFilter.hpp:425-498. *)
Definition do_resample (l : list particle) (n0 : nat) (u : Qc) : outcome (list particle) :=
  let n := sample_count n0 (length l) in
  let* sampled := draw (map pw l) n u in
  let* l' := copy_loop n (flags_of (length l) sampled) sampled None 0 l in
  Val (map (fun p => setWeight p (Some 1)) (firstn n l')).

(** resample, include/ParticleFilter.hpp:407-500. *)
Definition resample (s : pf) (n : nat) (force : bool) (u : Qc) : outcome (pf * bool) :=
  let l := normalizeWeights (pset s) in
  let* no := (if force then Val false else enough s l) in
  if no then Val (PF l (effT s) (effPct s), false)
  else
    let* l' := do_resample l n u in
    Val (PF l' (effT s) (effPct s), true).

End PF.
Arguments PT {Pose Data}. Arguments PF {Pose Data}.
Arguments pid {Pose Data}. Arguments pparent {Pose Data}. Arguments pw {Pose Data}.
Arguments ppose {Pose Data}. Arguments pprev {Pose Data}. Arguments pdata {Pose Data}.
Arguments pset {Pose Data}. Arguments effT {Pose Data}. Arguments effPct {Pose Data}.
Arguments setWeight {Pose Data}. Arguments setId {Pose Data}. Arguments setParentId {Pose Data}.
Arguments setData {Pose Data}. Arguments copy {Pose Data}. Arguments pf_empty {Pose Data}.
Arguments addParticles {Pose Data}. Arguments pf_new {Pose Data}. Arguments copyParticle {Pose Data}.
Arguments setEffectiveParticleCountThreshold {Pose Data}. Arguments normalizeWeights {Pose Data}.
Arguments copy_loop {Pose Data}. Arguments enough {Pose Data}.
Arguments do_resample {Pose Data}. Arguments resample {Pose Data}.
