(** Model of the spatial index: Box (include/SpatialIndexBox.hpp), TreeNode
    (include/Tree.hpp) and SpatialIndexTree (include/SpatialIndexTree.hpp).

    Simplifications.  Coordinates are exact rationals (no rounding, infinity or NaN).
    A stored point is a pointer (a number) whose position [P] does not change while it is
    stored.  The tree is a value; parent pointers are the prefixes of the path from the
    root, and a walk up the parents adds the same change to every count on the path.
    Euclidean distances are kept as their squares.  Counts are unbounded integers.
    Loops without an obvious bound take fuel; running out is a separate outcome. *)
From Coq Require Import List Bool Arith ZArith QArith Qcanon Qround.
From Verif Require Import Base ListUtil QcLra.
Import ListNotations.
Local Open Scope Qc_scope.

(** Pos: a fixed-size Eigen vector, include/SpatialIndexTree.hpp:56; here a list of any
    length, the dimension is a hypothesis of the theorems. *)
Definition pos := list Qc.

(** Box: size_, bound_min_, data_, nData_ and TreeNode::children_,
    include/SpatialIndexBox.hpp:175-187, include/Tree.hpp:115. *)
Inductive tree := Box (size : Qc) (lo : pos) (data : list nat) (cnt : Z) (ch : list tree).

(** Members, include/SpatialIndexBox.hpp:175-187. *)
Definition size (t : tree) := let 'Box s _ _ _ _ := t in s.
(** Part of the above, include/SpatialIndexBox.hpp:175-187. *)
Definition lo (t : tree) := let 'Box _ l _ _ _ := t in l.
(** Part of the above, include/SpatialIndexBox.hpp:175-187. *)
Definition data (t : tree) := let 'Box _ _ d _ _ := t in d.
(** Part of the above, include/SpatialIndexBox.hpp:175-187. *)
Definition cnt (t : tree) := let 'Box _ _ _ c _ := t in c.
(** Part of the above, include/SpatialIndexBox.hpp:175-187. *)
Definition children (t : tree) := let 'Box _ _ _ _ ch := t in ch.

(** The constants 2 and 1/2 of include/SpatialIndexTree.hpp:152,171,358. *)
Definition half : Qc := Q2Qc (1 # 2).
(** Part of the above, include/SpatialIndexTree.hpp:152,171,358. *)
Definition two : Qc := Q2Qc 2.

(** bound_max_ = pos + Ones * length, include/SpatialIndexBox.hpp:197. *)
Definition hi (t : tree) : pos := map (fun a => a + size t) (lo t).
(** getPos( POS_CENTER ), include/SpatialIndexBox.hpp:249. *)
Definition center (t : tree) : pos := map (fun a => size t * half + a) (lo t).

(** ( b - a ).minCoeff() >= 0, equally ( a - b ).maxCoeff() <= 0, as in
    include/SpatialIndexBox.hpp:300. *)
Definition le_all (a b : pos) : bool := forallb (fun c => Qcleb (fst c) (snd c)) (combine a b).

(** Box::isInside( p ), include/SpatialIndexBox.hpp:298-305. *)
Definition inside (t : tree) (p : pos) : bool := le_all p (hi t) && le_all (lo t) p.

(** A new box, include/SpatialIndexBox.hpp:192-201. *)
Definition new_box (s : Qc) (l : pos) : tree := Box s l [] 0 [].

(** Node at the end of a path of child indices (TreeNode::getChild, include/Tree.hpp:142-147). *)
Fixpoint get_at (path : list nat) (t : tree) : option tree :=
  match path with
  | [] => Some t
  | i :: q => match nth_error (children t) i with Some c => get_at q c | None => None end
  end.

(** Change the node at the end of the path by [f]; the change of the count that [f]
    reports is added to all parents (the loops of include/SpatialIndexBox.hpp:272-276,
    289-293,325-329,368-372). *)
Fixpoint alter (path : list nat) (f : tree -> outcome (tree * Z)) (t : tree) : outcome (tree * Z) :=
  match path with
  | [] => f t
  | i :: q =>
    let 'Box s l d c ch := t in
    match nth_error ch i with
    | None => UB NullDeref
    | Some x =>
      let* r := alter q f x in
      Val (Box s l d (c + snd r)%Z (upd ch i (fst r)), snd r)
    end
  end.

(** Box::addData, include/SpatialIndexBox.hpp:322-330. *)
Definition box_add (x : nat) (t : tree) : outcome (tree * Z) :=
  let 'Box s l d c ch := t in Val (Box s l (d ++ [x]) (c + 1)%Z ch, 1%Z).

(** Sum of the counts of the children, include/SpatialIndexBox.hpp:352-355,284-287. *)
Definition ccnt (ch : list tree) : Z := fold_right Z.add 0%Z (map cnt ch).

(** Box::removeData( -1 ), include/SpatialIndexBox.hpp:351-357,366-374. *)
Definition box_clear (t : tree) : outcome (tree * Z) :=
  let 'Box s l d c ch := t in
  let removed := (c - ccnt ch)%Z in
  Val (Box s l [] (c - removed)%Z ch, (- removed)%Z).

(** First index i with data_[i] == data, include/SpatialIndexBox.hpp:381-385. *)
Fixpoint find_index (x : nat) (l : list nat) (i : nat) : option nat :=
  match l with [] => None | y :: r => if Nat.eqb y x then Some i else find_index x r (S i) end.

(** Box::removeData( idx ) for idx >= 0, include/SpatialIndexBox.hpp:359-374. *)
Definition box_remove_at (i : nat) (t : tree) : outcome (tree * Z) :=
  let 'Box s l d c ch := t in
  let back := nth (length d - 1) d 0%nat in
  Val (Box s l (removelast (upd d i back)) (c - 1)%Z ch, (-1)%Z).

(** Box::removeChildren, include/SpatialIndexBox.hpp:282-295, include/Tree.hpp:182-187. *)
Definition box_removeChildren (t : tree) : outcome (tree * Z) :=
  let 'Box s l d c ch := t in
  let diff := (- ccnt ch)%Z in Val (Box s l d (c + diff)%Z [], diff).

(** Box::replaceChild, include/SpatialIndexBox.hpp:262-279, include/Tree.hpp:171-179. *)
Definition box_replaceChild (i : nat) (b : tree) (t : tree) : outcome (tree * Z) :=
  let 'Box s l d c ch := t in
  match nth_error ch i with
  | None => Val (t, 0%Z)
  | Some old => let diff := (cnt b - cnt old)%Z in Val (Box s l d (c + diff)%Z (upd ch i b), diff)
  end.

(** getData( 0 ) ... getData( nData_ - 1 ), include/SpatialIndexBox.hpp:338-345 as used in
    include/SpatialIndexTree.hpp:223-225,282-284,423-425,427-428,509-510.  A null pointer
    (index beyond data_) is reported as such. *)
Definition all_data (t : tree) : outcome (list nat) :=
  fold_right (fun i r => match nth_error (data t) i with
                         | Some d => let* l := r in Val (d :: l)
                         | None => UB NullDeref
                         end) (Val []) (seq 0 (Z.to_nat (cnt t))).

(** First child satisfying [f], with its index: the loops of include/SpatialIndexTree.hpp:177-193,338-345. *)
Fixpoint first_child (f : tree -> bool) (l : list tree) (i : nat) : option (nat * tree) :=
  match l with
  | [] => None
  | c :: r => if f c then Some (i, c) else first_child f r (S i)
  end.

(** Descent of include/SpatialIndexTree.hpp:332-346 from a box that has been checked to
    contain p; `throw` without an exception in flight terminates the program. *)
Fixpoint descend (p : pos) (t : tree) : outcome (list nat) :=
  match children t with
  | [] => Val []
  | _ =>
    let 'Box _ _ _ _ ch := t in
    (fix go (i : nat) (l : list tree) : outcome (list nat) :=
      match l with
      | [] => UB Aborted
      | c :: r => if inside c p then (let* q := descend p c in Val (i :: q)) else go (S i) r
      end) 0%nat ch
  end.

(** SpatialIndexTree::search, include/SpatialIndexTree.hpp:320-349; None is the null pointer. *)
Definition search (p : pos) (t : tree) : outcome (option (list nat)) :=
  if inside t p then (let* q := descend p t in Val (Some q)) else Val None.

(** The descent of include/SpatialIndexTree.hpp:386-398 and 476-489: the smallest box,
    following the first child that satisfies [f]. *)
Fixpoint smallest (f : tree -> bool) (t : tree) : tree :=
  let 'Box _ _ _ _ ch := t in
  (fix go (l : list tree) : tree :=
    match l with
    | [] => t
    | c :: r => if f c then smallest f c else go r
    end) ch.

Section Index.
Variable nDim : nat.
Variable m : Qc.             (* minBoxSize_ *)
Variable P : nat -> pos.     (* getDataPos, include/SpatialIndexTree.hpp:376-381 *)

(** Lower corner of child i, include/SpatialIndexTree.hpp:361-366. *)
Definition child_lo (cs : Qc) (l : pos) (i : nat) : pos :=
  map (fun da => (if Nat.testbit i (fst da) then 1 else 0) * cs + snd da) (combine (seq 0 (length l)) l).

(** SpatialIndexTree::branch, include/SpatialIndexTree.hpp:351-374. *)
Definition branch (t : tree) : tree * bool :=
  let 'Box s l d c ch := t in
  if Qc_eq_bool s m then (t, false)
  else
    let cs := s * half in
    (Box s l d c (ch ++ map (fun i => new_box cs (child_lo cs l i)) (seq 0 (2 ^ nDim))), true).

(** Pos::Ones() * a, include/SpatialIndexTree.hpp:152,171. *)
Definition ones (a : Qc) : pos := repeat a nDim.

(** Constructor and clear(), include/SpatialIndexTree.hpp:150-154,525-529. *)
Definition init : tree := fst (branch (new_box (m * two) (ones (- m)))).

(** Body for one child [o] of the old root, include/SpatialIndexTree.hpp:176-194. *)
Definition adopt (o root : tree) : outcome tree :=
  match first_child (fun c => inside c (center o)) (children root) 0 with
  | None => Val root
  | Some (ci, _) =>
    if (0 <? cnt o)%Z then
      let* r := alter [ci] (fun c => Val (fst (branch c), 0%Z)) root in
      match nth_error (children (fst r)) ci with
      | None => UB NullDeref
      | Some c =>
        match first_child (fun g => inside g (center o)) (children c) 0 with
        | None => Val (fst r)
        | Some (j, _) => let* r' := alter [ci] (box_replaceChild j o) (fst r) in Val (fst r')
        end
      end
    else Val root
  end.

(** One doubling of the root, include/SpatialIndexTree.hpp:169-196. *)
Definition double (root : tree) : outcome tree :=
  let root' := fst (branch (new_box (size root * two) (ones (- size root)))) in
  fold_left (fun r o => let* x := r in adopt o x) (children root) (Val root').

(** The loop of include/SpatialIndexTree.hpp:164-200: root and box found. *)
Fixpoint grow (fuel : nat) (x : pos) (root : tree) : outcome (tree * list nat) :=
  let* s := search x root in
  match s with
  | Some path => Val (root, path)
  | None =>
    match fuel with
    | O => OutOfFuel
    | S f => let* root' := double root in grow f x root'
    end
  end.

(** smallest_box, include/SpatialIndexTree.hpp:210-215. *)
Definition small_box (y : pos) : tree :=
  new_box m (map (fun a => QcZ (Qfloor (this (a / m))) * m) y).

(** Splitting of a box, include/SpatialIndexTree.hpp:220-231; the counts of the
    parents of the box are changed once, by the total. *)
Definition split (b : tree) : outcome (tree * Z) :=
  let b1 := fst (branch b) in
  let* l := all_data b1 in
  let* r := fold_left (fun acc d =>
      let* a := acc in
      let* s := search (P d) (fst a) in
      match s with
      | None => UB NullDeref
      | Some q => let* a' := alter q (box_add d) (fst a) in Val (fst a', (snd a + snd a')%Z)
      end) l (Val (b1, 0%Z)) in
  let* r' := box_clear (fst r) in
  Val (fst r', (snd r + snd r')%Z).

(** The loop of include/SpatialIndexTree.hpp:206-244; [path] leads to b. *)
Fixpoint place (fuel : nat) (x : pos) (path : list nat) (root : tree) : outcome (tree * list nat) :=
  match get_at path root with
  | None => UB NullDeref
  | Some b =>
    if (0 <? cnt b)%Z then
      match data b with
      | [] => UB NullDeref
      | y :: _ =>
        if negb (inside (small_box (P y)) x) then
          if snd (branch b) then
            match fuel with
            | O => OutOfFuel
            | S f =>
              let* r := alter path split root in
              match get_at path (fst r) with
              | None => UB NullDeref
              | Some b' =>
                let* s := search x b' in
                match s with
                | None => UB NullDeref
                | Some q => place f x (path ++ q) (fst r)
                end
              end
            end
          else Val (root, path)
        else Val (root, path)
      end
    else Val (root, path)
  end.

(** SpatialIndexTree::addData, include/SpatialIndexTree.hpp:160-250. *)
Definition addData (fuel : nat) (d : nat) (root : tree) : outcome tree :=
  let x := P d in
  let* g := grow fuel x root in
  match get_at (snd g) (fst g) with
  | None => UB NullDeref
  | Some b =>
    if Qc_eq_bool (size b) m || (cnt b =? 0)%Z then
      let* r := alter (snd g) (box_add d) (fst g) in Val (fst r)
    else
      let* q := place fuel x (snd g) (fst g) in
      let* r := alter (snd q) (box_add d) (fst q) in Val (fst r)
  end.

(** The search for the only child with data, include/SpatialIndexTree.hpp:265-280,289-303. *)
Fixpoint sole (ch : list tree) (i : nat) (c : option nat) : option nat :=
  match ch with
  | [] => c
  | x :: r =>
    match children x with
    | [] => if (0 <? cnt x)%Z then match c with None => sole r (S i) (Some i) | Some _ => None end
            else sole r (S i) c
    | _ => None
    end
  end.

(** Moving the data of child c up, include/SpatialIndexTree.hpp:282-286. *)
Definition pull (c : nat) (p : tree) : outcome (tree * Z) :=
  match nth_error (children p) c with
  | None => UB NullDeref
  | Some x =>
    let* l := all_data x in
    let* r := fold_left (fun acc d => let* a := acc in let* a' := box_add d (fst a) in
                                      Val (fst a', (snd a + snd a')%Z)) l (Val (p, 0%Z)) in
    let* r' := box_removeChildren (fst r) in
    Val (fst r', (snd r + snd r')%Z)
  end.

(** include/SpatialIndexTree.hpp:259-306 from the box p at the reverse of the given path. *)
Fixpoint collapse (rpath : list nat) (root : tree) : outcome tree :=
  match rpath with
  | [] => Val root
  | _ :: rest =>
    match get_at (rev rpath) root with
    | None => UB NullDeref
    | Some p =>
      match sole (children p) 0 None with
      | None => Val root
      | Some c => let* r := alter (rev rpath) (pull c) root in collapse rest (fst r)
      end
    end
  end.

(** SpatialIndexTree::removeData, include/SpatialIndexTree.hpp:253-311. *)
Definition removeData (d : nat) (root : tree) : outcome (tree * bool) :=
  let* s := search (P d) root in
  match s with
  | None => UB NullDeref
  | Some path =>
    match get_at path root with
    | None => UB NullDeref
    | Some b =>
      match find_index d (data b) 0 with
      | None => Val (root, false)
      | Some i =>
        let* r := alter path (box_remove_at i) root in
        match rev path with
        | [] => UB NullDeref
        | _ :: rp => let* t := collapse rp (fst r) in Val (t, true)
        end
      end
    end
  end.

(** SpatialIndexTree::getDataSize, include/SpatialIndexTree.hpp:313-317. *)
Definition getDataSize (root : tree) : Z := cnt root.

(** The test of a point, include/SpatialIndexTree.hpp:429-430. *)
Definition in_box (qmin qmax x : pos) : bool := le_all x qmax && le_all qmin x.

(** Leaf case of queryDataInBox, include/SpatialIndexTree.hpp:416-434. *)
Definition leaf_in_box (qmin qmax : pos) (b : tree) : outcome (list nat) :=
  let* l := all_data b in
  if le_all (hi b) qmax && le_all qmin (hi b) && le_all (lo b) qmax && le_all qmin (lo b) then Val l
  else Val (filter (fun d => in_box qmin qmax (P d)) l).

(** The traversal of include/SpatialIndexTree.hpp:400-437; head of the list = back of the
    stack. *)
Fixpoint walk_box (fuel : nat) (qmin qmax : pos) (stack : list tree) (res : list nat) : outcome (list nat) :=
  match stack with
  | [] => Val res
  | b :: rest =>
    match fuel with
    | O => OutOfFuel
    | S f =>
      match children b with
      | [] => let* l := leaf_in_box qmin qmax b in walk_box f qmin qmax rest (res ++ l)
      | ch => walk_box f qmin qmax (filter (fun c => (0 <? cnt c)%Z) ch ++ rest) res
      end
    end
  end.

(** SpatialIndexTree::queryDataInBox, include/SpatialIndexTree.hpp:383-439, with an
    empty result vector. *)
Definition queryDataInBox (fuel : nat) (qmin qmax : pos) (root : tree) : outcome (list nat) :=
  walk_box fuel qmin qmax [smallest (fun c => inside c qmin && inside c qmax) root] [].

(** Square of ( a - b ).norm(), include/SpatialIndexTree.hpp:472,510. *)
Definition dist2 (a b : pos) : Qc := qsum (map (fun c => (fst c - snd c) * (fst c - snd c)) (combine a b)).

(** e <= sqrt( D ) for D >= 0, the comparison with the distance in
    include/SpatialIndexBox.hpp:391-397. *)
Definition le_root (e D : Qc) : bool := Qcleb e 0 || Qcleb (e * e) D.
(** sqrt( D ) <= e for D >= 0, include/SpatialIndexTree.hpp:473-474. *)
Definition root_le (D e : Qc) : bool := Qcleb 0 e && Qcleb D (e * e).

(** isInside( qbox_max, qbox_min ) of the box qp - dist .. qp + dist,
    include/SpatialIndexTree.hpp:473-474,483, include/SpatialIndexBox.hpp:314-319; D = dist^2.
    Since dist >= 0 only one side of each corner matters. *)
Definition ball_inside (qp : pos) (D : Qc) (c : tree) : bool :=
  forallb (fun a => root_le D (snd a - fst a)) (combine qp (hi c)) &&
  forallb (fun a => root_le D (fst a - snd a)) (combine qp (lo c)).

(** Box::isWithinDistance, include/SpatialIndexBox.hpp:391-397: p lies in the box of side
    size + 2 d around the centre. *)
Definition within (qp : pos) (D : Qc) (c : tree) : bool :=
  forallb (fun a => le_root (fst a - snd a - size c * half) D && le_root (snd a - fst a - size c * half) D)
          (combine qp (center c)).

(** The loop of include/SpatialIndexTree.hpp:450-468. *)
Fixpoint some_point (fuel : nat) (path : list nat) (root : tree) : outcome nat :=
  match fuel with
  | O => OutOfFuel
  | S f =>
    match get_at path root with
    | None => UB NullDeref
    | Some b =>
      if (0 <? cnt b)%Z then
        match children b with
        | [] => match data b with d :: _ => Val d | [] => some_point f path root end
        | ch =>
          match first_child (fun c => (0 <? cnt c)%Z) ch 0 with
          | Some (i, _) => some_point f (path ++ [i]) root
          | None => some_point f path root
          end
        end
      else
        match rev path with
        | [] => UB NullDeref
        | _ :: rp => some_point f (rev rp) root
        end
    end
  end.

(** Leaf case of queryClosestPt, include/SpatialIndexTree.hpp:509-516. *)
Definition leaf_closest (qp : pos) (l : list nat) (best : nat * Qc) : nat * Qc :=
  fold_left (fun b d => let e := dist2 (P d) qp in if Qcltb e (snd b) then (d, e) else b) l best.

(** The traversal of include/SpatialIndexTree.hpp:491-520. *)
Fixpoint walk_closest (fuel : nat) (qp : pos) (stack : list tree) (best : nat * Qc) : outcome (nat * Qc) :=
  match stack with
  | [] => Val best
  | b :: rest =>
    match fuel with
    | O => OutOfFuel
    | S f =>
      match children b with
      | [] => let* l := all_data b in walk_closest f qp rest (leaf_closest qp l best)
      | ch => walk_closest f qp (filter (within qp (snd best)) ch ++ rest) best
      end
    end
  end.

(** SpatialIndexTree::queryClosestPt, include/SpatialIndexTree.hpp:443-523. *)
Definition queryClosestPt (fuel : nat) (qp : pos) (root : tree) : outcome nat :=
  let* s := search qp root in
  let* d := some_point fuel (match s with Some q => q | None => [] end) root in
  let D := dist2 (P d) qp in
  let* r := walk_closest fuel qp [smallest (ball_inside qp D) root] (d, D) in
  Val (fst r).

(** Member functions called by a user, include/SpatialIndexTree.hpp:75-114. *)
Inductive op := Add (d : nat) | Remove (d : nat) | Clear | Size
  | InBox (qmin qmax : pos) | Closest (qp : pos).
(** Their results; include/SpatialIndexTree.hpp:71-104. *)
Inductive answer := ANone | ABool (b : bool) | ANum (z : Z) | AList (l : list nat) | APoint (d : nat).

(** One call, include/SpatialIndexTree.hpp:159-529. *)
Definition call (fuel : nat) (o : op) (root : tree) : outcome (tree * answer) :=
  match o with
  | Add d => let* t := addData fuel d root in Val (t, ANone)
  | Remove d => let* r := removeData d root in Val (fst r, ABool (snd r))
  | Clear => Val (init, ANone)
  | Size => Val (root, ANum (getDataSize root))
  | InBox a b => let* l := queryDataInBox fuel a b root in Val (root, AList l)
  | Closest q => let* d := queryClosestPt fuel q root in Val (root, APoint d)
  end.

(** A history of calls on a new index, include/SpatialIndexTree.hpp:150-529. *)
Fixpoint calls (fuel : nat) (l : list op) (root : tree) : outcome (tree * list answer) :=
  match l with
  | [] => Val (root, [])
  | o :: r =>
    let* a := call fuel o root in
    let* b := calls fuel r (fst a) in
    Val (fst b, snd a :: snd b)
  end.
End Index.
