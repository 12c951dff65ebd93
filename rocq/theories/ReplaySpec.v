(** What a replay is to do, independently of the loop. *)
From Coq Require Import ZArith QArith Qcanon Reals List Bool Ascii String.
From Verif Require Import Base TimeStampModel TimeStampSpec ReplayModel.
Import ListNotations.
Local Open Scope Z_scope.
Local Open Scope list_scope.

(** The messages that the filter takes notice of. *)
Definition for_filter (m : msg) : Prop := m_kind m = INPUT \/ m_kind m = LIDAR.
Definition handled (ms : list msg) : list msg := filter (fun m => (m_kind m =? INPUT) || (m_kind m =? LIDAR)) ms.
Definition of_kind (k : Z) (ms : list msg) : list msg := filter (fun m => m_kind m =? k) ms.

(** The first n messages, all of them if n is not positive. *)
Definition selected (n : Z) (ms : list msg) : list msg := if n <=? 0 then ms else firstn (Z.to_nat n) ms.

(** A message with a stamp that is not negative and an index within its list. *)
Definition usable (n_inputs n_scans : nat) (m : msg) : Prop :=
  normal (m_t m) /\ 0 <= sec (m_t m) /\
  (m_kind m = INPUT -> 0 <= m_idx m < Z.of_nat n_inputs) /\
  (m_kind m = LIDAR -> 0 <= m_idx m < Z.of_nat n_scans).

(** The calls of predict and of update. *)
Definition predicts {A S : Type} (es : list (@event A S)) : list (timestamp * (Qc * Qc) * bool * bool) :=
  flat_map (fun e => match e with Predict dt u n b => [(dt, u, n, b)] | Update _ _ => [] end) es.
Definition updates {A S : Type} (es : list (@event A S)) : list (S * list A) :=
  flat_map (fun e => match e with Predict _ _ _ _ => [] | Update s z => [(s, z)] end) es.

(** Sum of the time steps, in nanoseconds. *)
Definition total (cs : list (timestamp * (Qc * Qc) * bool * bool)) : Z :=
  fold_right (fun c a => nanos (fst (fst (fst c))) + a) 0 cs.

(** The input in force after the messages [pre]: that of the last input message, zero before. *)
Definition in_force (inputs : list (Qc * Qc)) (pre : list msg) (u : Qc * Qc) : Prop :=
  (of_kind INPUT pre = [] /\ u = (0, 0)%Qc) \/
  exists a m b, pre = a ++ m :: b /\ m_kind m = INPUT /\ of_kind INPUT b = [] /\
    0 <= m_idx m /\ nth_error inputs (Z.to_nat (m_idx m)) = Some u.

(** Some input message of [pre] has a speed other than zero. *)
Definition has_moved (inputs : list (Qc * Qc)) (pre : list msg) : Prop :=
  exists m u, In m pre /\ m_kind m = INPUT /\ nth_error inputs (Z.to_nat (m_idx m)) = Some u /\ fst u <> 0%Qc.

(** Time of the last message of [pre], zero before the first. *)
Definition time_of (pre : list msg) : Z := match rev pre with [] => 0 | m :: _ => nanos (m_t m) end.
(** The last message of [pre] is a scan, or there is none. *)
Definition after_scan (pre : list msg) : Prop := match rev pre with [] => True | m :: _ => m_kind m = LIDAR end.

(** The measurements of a time. *)
Definition measured_at {A : Type} (t : timestamp) (zs : list (timestamp * A)) : list A :=
  map snd (filter (fun z => ts_eqb (fst z) t) zs).
(** Times in order. *)
Fixpoint in_order (ts : list timestamp) : Prop :=
  match ts with
  | [] => True
  | t :: ts' => (forall t', In t' ts' -> nanos t <= nanos t') /\ in_order ts'
  end.
Fixpoint strictly_ordered (ts : list timestamp) : Prop :=
  match ts with
  | [] => True
  | t :: ts' => (forall t', In t' ts' -> nanos t < nanos t') /\ strictly_ordered ts'
  end.

(** One update: with the scan of the index of the message, the measurements of its time, and then
    what [clutter] adds. *)
Definition right_update {A S : Type} (clutter : nat -> outcome (list A * nat)) (scans : list S) (zs : list (timestamp * A))
    (m : msg) (u : S * list A) : Prop :=
  nth_error scans (Z.to_nat (m_idx m)) = Some (fst u) /\
  exists p cl p', clutter p = Val (cl, p') /\ snd u = measured_at (m_t m) zs ++ cl.

(** A scan as it is written: a time that is not negative, and one number for each beam. *)
Definition good_scan (r : Q * list Q) (ts : timestamp) : Prop :=
  (0 <= fst r)%Q /\ setTime (fst r) = Val ts /\ List.length (snd r) = 361%nat.
(** The file with the given scans. *)
Definition lidar_file (rs : list (Q * list Q)) : list Q := flat_map (fun r => fst r :: snd r) rs.

(** The decimal number with integer digits ds and fraction digits fs (a point only if there are any),
    and its text. *)
Definition digit (d : Z) : ascii := ascii_of_nat (Z.to_nat (48 + d)).
Fixpoint text (ds : list Z) : string := match ds with [] => EmptyString | d :: ds' => String (digit d) (text ds') end.
Definition decimal_text (ds fs : list Z) : string :=
  append (text ds) (match fs with [] => EmptyString | _ => String "."%char (text fs) end).
Fixpoint whole (ds : list Z) : Z := match ds with [] => 0 | d :: ds' => d * 10 ^ Z.of_nat (List.length ds') + whole ds' end.
Definition decimal_value (ds fs : list Z) : Q := (inject_Z (whole ds) + inject_Z (whole fs) / inject_Z (10 ^ Z.of_nat (List.length fs)))%Q.
Definition are_digits (ds : list Z) : Prop := forall d, In d ds -> 0 <= d <= 9.

(** The path of the particle in slot i after the operations, oldest pose first. *)
Inductive path {P : Type} (ps0 : list P) : list (@pf_op P) -> nat -> list P -> Prop :=
| path_start : forall i x, nth_error ps0 i = Some x -> path ps0 [] i [x]
| path_move : forall ops f i xs x, path ps0 ops i (xs ++ [x]) -> path ps0 (ops ++ [Propagate f]) i (xs ++ [x; f i x])
| path_copy : forall ops sel i j xs, path ps0 ops j xs -> nth_error sel i = Some j -> path ps0 (ops ++ [Resample sel]) i xs.
Definition moves {P : Type} (ops : list (@pf_op P)) : nat :=
  List.length (filter (fun o => match o with Propagate _ => true | Resample _ => false end) ops).
Definition total_w (ws : list Qc) : Qc := fold_right Qcplus 0%Qc ws.
