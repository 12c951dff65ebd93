(** Model of HungarianMethod::run (include/HungarianMethod.hpp:90-587).

    Simplifications, valid for the whole file:
    - matrix entries are unbounded integers, so arithmetic is exact and the
      tolerances 1e-14 / 1e-12 become tests for zero;
    - an array of n elements is a function on nat of which only 0..n-1 are used;
      every data-dependent index (one that is not a loop counter 0..n-1) is an
      [option] and using it when it is -1 or n is the outcome OutOfBounds;
    - the merged vertex numbering of the breadth-first search (x as x, y as y+n)
      is the type [vertex], the array p[2n] the two functions px, py;
    - the local arrays are not freed when false is returned
      (include/HungarianMethod.hpp:522); this leak is not modelled. *)
From Coq Require Import ZArith List Bool Arith.
From Verif Require Import Base ListUtil.
Import ListNotations.
Local Open Scope Z_scope.

(** The argument C, a double pointer, include/HungarianMethod.hpp:90. *)
Definition mat := nat -> nat -> Z.

(** Array store a[i] = v, e.g. include/HungarianMethod.hpp:449-450. *)
Definition fset {A : Type} (f : nat -> A) (i : nat) (v : A) : nat -> A :=
  fun j => if Nat.eqb j i then v else f j.

(** for(i = 0; i < n; i++) if(f(i)) break;  -- None when the loop ends with i == n,
    include/HungarianMethod.hpp:237-241,400-403 *)
Definition first (f : nat -> bool) (n : nat) : option nat := find f (seq 0 n).

(** Double loop over all entries x, y < n, include/HungarianMethod.hpp:137-138. *)
Definition entries (n : nat) : list (nat * nat) :=
  flat_map (fun x => map (fun y => (x, y)) (seq 0 n)) (seq 0 n).

(** Assignment to all entries of the n x n block, include/HungarianMethod.hpp:144-148. *)
Definition on_block (n : nat) (f : Z -> Z) (C : mat) : mat :=
  fun x y => if (Nat.ltb x n && Nat.ltb y n)%bool then f (C x y) else C x y.

(** Local variables of run that live across iterations of the main loop,
    include/HungarianMethod.hpp:94-112. *)
Record hst := HS {
  lx : nat -> Z; ly : nat -> Z;
  xy : nat -> option nat; yx : nat -> option nat;   (** None is -1 *)
  hS : nat -> bool; hT : nat -> bool; hNS : nat -> bool;
  slack : nat -> Z; hroot : nat }.

(** Running minimum of 0 and the entries, include/HungarianMethod.hpp:124-130,137-143. *)
Definition offset_of (n : nat) (C : mat) : Z :=
  fold_left (fun o xy => if C (fst xy) (snd xy) <? o then C (fst xy) (snd xy) else o) (entries n) 0.

(** Negation when minimising, then subtraction of the offset,
    include/HungarianMethod.hpp:122-149.  Returns (C, offset). *)
Definition prepare (n : nat) (C : mat) (maximize : bool) : mat * Z :=
  let C1 := if maximize then C else on_block n (fun v => v * -1) C in
  let o := offset_of n C1 in
  (on_block n (fun v => v - o) C1, o).

(** Undoing both, include/HungarianMethod.hpp:243-259. *)
Definition undo (n : nat) (C : mat) (maximize : bool) (o : Z) : mat :=
  let C1 := if o =? 0 then C else on_block n (fun v => v + o) C in
  if maximize then C1 else on_block n (fun v => v * -1) C1.

(** Row scan of step 1, include/HungarianMethod.hpp:165-172: (lx[x], xy[x]). *)
Definition row_max (n : nat) (C : mat) (x : nat) : Z * option nat :=
  fold_left (fun a y => if fst a <=? C x y then (C x y, Some y) else a) (seq 0 n) (0, None).

(** Body of the loop of step 1 for row x, include/HungarianMethod.hpp:163-194. *)
Definition init_row (n : nat) (C : mat) (s : hst) (x : nat) : outcome hst :=
  let '(l, oy) := row_max n C x in
  let s := HS (fset (lx s) x l) (fset (ly s) x 0) (fset (xy s) x oy) (yx s)
              (hS s) (hT s) (hNS s) (slack s) (hroot s) in
  match oy with
  | None => UB OutOfBounds
  | Some y =>
      match yx s y with
      | Some x_t =>
          if C x_t y <? C x y then
            Val (HS (lx s) (ly s) (fset (xy s) x_t None) (fset (yx s) y (Some x))
                    (hS s) (hT s) (hNS s) (slack s) (hroot s))
          else
            Val (HS (lx s) (ly s) (fset (xy s) x None) (yx s)
                    (hS s) (hT s) (hNS s) (slack s) (hroot s))
      | None =>
          Val (HS (lx s) (ly s) (xy s) (fset (yx s) y (Some x))
                  (hS s) (hT s) (hNS s) (slack s) (hroot s))
      end
  end.

(** The loop of step 1, include/HungarianMethod.hpp:163-194. *)
Fixpoint init_rows (n : nat) (C : mat) (s : hst) (xs : list nat) : outcome hst :=
  match xs with
  | [] => Val s
  | x :: r => let* s' := init_row n C s x in init_rows n C s' r
  end.

(** Initialisation and step 1, include/HungarianMethod.hpp:113-120,162-194. *)
Definition init (n : nat) (C : mat) : outcome hst :=
  init_rows n C (HS (fun _ => 0) (fun _ => 0) (fun _ => None) (fun _ => None)
                    (fun _ => false) (fun _ => false) (fun _ => false) (fun _ => 0) 0) (seq 0 n).

Section Loop.
Variable n : nat.
Variable C : mat.

(** slack of edge (x, y), the expression lx[x] + ly[y] - C[x][y],
    include/HungarianMethod.hpp:290,487,500,538,568. *)
Definition sl (s : hst) (x y : nat) : Z := lx s x + ly s y - C x y.

(** Step 2 for a chosen free vertex x, include/HungarianMethod.hpp:230-236,285-297. *)
Definition step2 (s : hst) (x : nat) : hst :=
  HS (lx s) (ly s) (xy s) (yx s) (fset (fun _ => false) x true) (fun _ => false)
     (fun y => sl s x y =? 0) (fun y => sl s x y) x.

(** Minimum slack of the y not in T, include/HungarianMethod.hpp:343-349;
    None stands for the initial value DBL_MAX. *)
Definition min_slack (s : hst) : option Z :=
  fold_left (fun a y => if hT s y then a else
               match a with None => Some (slack s y) | Some v => Some (Z.min v (slack s y)) end)
            (seq 0 n) None.

(** Step 3, include/HungarianMethod.hpp:322-378.  Subtracting DBL_MAX from the
    labels is the outcome Aborted. *)
Definition step3 (s : hst) : outcome hst :=
  if forallb (fun y => Bool.eqb (hNS s y) (hT s y)) (seq 0 n) then
    match min_slack s with
    | None => UB Aborted
    | Some a =>
        let slack' := fun y => if hT s y then slack s y else slack s y - a in
        Val (HS (fun x => if hS s x then lx s x - a else lx s x)
                (fun y => if hT s y then ly s y + a else ly s y)
                (xy s) (yx s) (hS s) (hT s)
                (fun y => if slack' y =? 0 then true else hNS s y)
                slack' (hroot s))
    end
  else Val s.

(** Vertices of the breadth-first search, include/HungarianMethod.hpp:414-417. *)
Inductive vertex := VX (x : nat) | VY (y : nat).

(** Queue, x_q, y_q and the parents p, include/HungarianMethod.hpp:101-107,417-428. *)
Record bfs := BFS { bq : list vertex; xq : nat -> bool; yq : nat -> bool;
                    px : nat -> option nat; py : nat -> option nat }.

(** Children of an x vertex, include/HungarianMethod.hpp:484-495. *)
Definition visit_x (s : hst) (b : bfs) (t : nat) : bfs :=
  fold_left (fun b y =>
    if ((sl s t y =? 0) && negb (yq b y) &&
        negb (match xy s t with Some y' => Nat.eqb y' y | None => false end))%bool
    then BFS (bq b ++ [VY y]) (xq b) (fset (yq b) y true) (px b) (fset (py b) y (Some t))
    else b) (seq 0 n) b.

(** Children of a y vertex, include/HungarianMethod.hpp:496-509. *)
Definition visit_y (s : hst) (b : bfs) (t : nat) : bfs :=
  fold_left (fun b x =>
    if ((sl s x t =? 0) && hS s x && negb (xq b x) &&
        (match yx s t with Some x' => Nat.eqb x' x | None => false end))%bool
    then BFS (bq b ++ [VX x]) (fset (xq b) x true) (yq b) (fset (px b) x (Some t)) (py b)
    else b) (seq 0 n) b.

(** Search loop, include/HungarianMethod.hpp:430-511.  Result: the final parents
    when the target was reached, None when the queue ran empty. *)
Fixpoint bfs_loop (fuel : nat) (s : hst) (target : nat) (b : bfs) : outcome (option bfs) :=
  match bq b with
  | [] => Val None
  | t :: r =>
      match t with
      | VY y => if Nat.eqb y target then Val (Some b) else
          match fuel with
          | O => OutOfFuel
          | S k => bfs_loop k s target (visit_y s (BFS r (xq b) (yq b) (px b) (py b)) y)
          end
      | VX x =>
          match fuel with
          | O => OutOfFuel
          | S k => bfs_loop k s target (visit_x s (BFS r (xq b) (yq b) (px b) (py b)) x)
          end
      end
  end.

(** Start of the search, include/HungarianMethod.hpp:417-429. *)
Definition bfs_init (root : nat) : bfs :=
  BFS [VX root] (fset (fun _ => false) root true) (fun _ => false) (fun _ => None) (fun _ => None).

(** Inverting the matching along the path, include/HungarianMethod.hpp:446-461,
    for t = y + n; a parent -1 is an index out of bounds. *)
Fixpoint augment (fuel : nat) (s : hst) (b : bfs) (y : nat) : outcome hst :=
  match fuel with
  | O => OutOfFuel
  | S k =>
      match py b y with
      | None => UB OutOfBounds
      | Some x =>
          let s' := HS (lx s) (ly s) (fset (xy s) x (Some y)) (fset (yx s) y (Some x))
                       (hS s) (hT s) (hNS s) (slack s) (hroot s) in
          if Nat.eqb x (hroot s) then Val s' else
          match px b x with
          | None => UB OutOfBounds
          | Some y' => augment k s' b y'
          end
      end
  end.

(** Ways an iteration of the main loop can end, include/HungarianMethod.hpp:283,522,525,581. *)
Inductive res :=
| Done (s : hst)                (** no free x left: solution found *)
| Failed                        (** no augmenting path found: return false *)
| Cont (s : hst) (pick : bool). (** next iteration, with pickFreeVertex *)

(** Step 4, include/HungarianMethod.hpp:398-583. *)
Definition step4 (s : hst) : outcome res :=
  match first (fun y => hNS s y && negb (hT s y)) n with
  | None => UB OutOfBounds
  | Some y =>
      match yx s y with
      | None =>
          let* r := bfs_loop (2 * n + 1) s y (bfs_init (hroot s)) in
          match r with
          | None => Val Failed
          | Some b => let* s' := augment (n + 1) s b y in Val (Cont s' true)
          end
      | Some x_t =>
          Val (Cont (HS (lx s) (ly s) (xy s) (yx s)
                        (fset (hS s) x_t true) (fset (hT s) y true)
                        (fun y_t => if sl s x_t y_t =? 0 then true else hNS s y_t)
                        (fun y => if sl s x_t y <? slack s y then sl s x_t y else slack s y)
                        (hroot s)) false)
      end
  end.

(** One iteration of the main loop, include/HungarianMethod.hpp:224-585. *)
Definition iter (s : hst) (pick : bool) : outcome res :=
  if pick then
    match first (fun x => match xy s x with None => true | Some _ => false end) n with
    | None => Val (Done s)
    | Some x => let* s3 := step3 (step2 s x) in step4 s3
    end
  else let* s3 := step3 s in step4 s3.

(** The main loop while(true), include/HungarianMethod.hpp:224-585. *)
Fixpoint loop (fuel : nat) (s : hst) (pick : bool) : outcome (option hst) :=
  match fuel with
  | O => OutOfFuel
  | S k =>
      let* r := iter s pick in
      match r with
      | Done s' => Val (Some s')
      | Failed => Val None
      | Cont s' p => loop k s' p
      end
  end.

End Loop.

(** Copying xy to soln and summing the cost, include/HungarianMethod.hpp:261-265. *)
Fixpoint collect (C : mat) (f : nat -> option nat) (xs : list nat) (cost : Z) : outcome (list nat * Z) :=
  match xs with
  | [] => Val ([], cost)
  | x :: r =>
      match f x with
      | None => UB OutOfBounds
      | Some y => let* ac := collect C f r (cost + C x y) in Val (y :: fst ac, snd ac)
      end
  end.

(** run, include/HungarianMethod.hpp:90-587.  Returns the matrix C as left behind
    and, when the return value is true, (soln, cost). *)
Definition hungarian (C : mat) (n : nat) (maximize : bool) : outcome (mat * option (list nat * Z)) :=
  let '(C1, o) := prepare n C maximize in
  let* s0 := init n C1 in
  let* r := loop n C1 (n * (n + 1) + n + 1) s0 true in
  match r with
  | None => Val (C1, None)
  | Some s =>
      let C2 := undo n C1 maximize o in
      let* ac := collect C2 (xy s) (seq 0 n) 0 in
      Val (C2, Some ac)
  end.
