(** The balanced tree of misc/gstruct_aatree.h, the operations with a comparison function: create
    (141), count (222), print order (246), rotations, skew and split (271-322), insert (377-427),
    find (598-622), minimum and maximum (625-660).  The operations on a basic type (329-372,
    573-594) are the same with < and >.  Pointers to nodes are subtrees, the sentinel is [Null]
    (level 0, its own child on both sides, 132-138).  Parent pointers serve advance and retreat
    only and are left out, as is delete: the project uses none of these.  Memory exhaustion is
    left out.  [None] is an update of the sentinel, which is shared by all trees. *)
From Coq Require Import ZArith List Bool.
Import ListNotations.
Open Scope Z_scope.

Section Tree.
Variable V : Type.
Inductive tree := Null | Node (level : Z) (left : tree) (value : V) (right : tree).

Definition level (t : tree) : Z := match t with Null => 0 | Node k _ _ _ => k end.
Definition lf (t : tree) : tree := match t with Null => Null | Node _ l _ _ => l end.
Definition rt (t : tree) : tree := match t with Null => Null | Node _ _ _ r => r end.

(** 305-311 with 271-284: rotating the sentinel with itself changes nothing, rotating a node with
    the sentinel does. *)
Definition skew (t : tree) : option tree :=
  if level (lf t) =? level t then
    match t with
    | Null => Some Null
    | Node k2 Null _ _ => None
    | Node k2 (Node k1 a x b) y c => Some (Node k1 a x (Node k2 b y c))
    end
  else Some t.
(** 315-323 with 288-301; on the sentinel the level is raised. *)
Definition split (t : tree) : option tree :=
  if level (rt (rt t)) =? level t then
    match t with
    | Null => None
    | Node _ _ _ Null => None
    | Node k1 a x (Node k2 b y c) => Some (Node (k2 + 1) (Node k1 a x b) y c)
    end
  else Some t.

Variable comp : V -> V -> Z.
(** 377-420; the flag is false when the value was there (NULL is returned). *)
Fixpoint insert_ (t : tree) (v : V) : option (tree * bool) :=
  let r := match t with
           | Null => Some (Node 1 Null v Null, true)
           | Node k a x b =>
               let c := comp v x in
               if c <? 0 then match insert_ a v with Some (a', f) => Some (Node k a' x b, f) | None => None end
               else if c >? 0 then match insert_ b v with Some (b', f) => Some (Node k a x b', f) | None => None end
               else Some (t, false)
           end in
  match r with
  | Some (t, f) => match skew t with
                   | Some t => match split t with Some t => Some (t, f) | None => None end
                   | None => None
                   end
  | None => None
  end.
(** 598-615 *)
Fixpoint find_ (t : tree) (v : V) : option V :=
  match t with
  | Null => None
  | Node _ a x b => let c := comp v x in if c <? 0 then find_ a v else if c >? 0 then find_ b v else Some x
  end.
(** 625-633, 644-652 *)
Fixpoint find_min (t : tree) : option V :=
  match t with Null => None | Node _ Null x _ => Some x | Node _ a _ _ => find_min a end.
Fixpoint find_max (t : tree) : option V :=
  match t with Null => None | Node _ _ x Null => Some x | Node _ _ _ b => find_max b end.
(** 222-235 and 246-260: the number returned and the order of the values printed *)
Fixpoint count (t : tree) : Z := match t with Null => 0 | Node _ a _ b => 1 + count a + count b end.
Fixpoint in_order (t : tree) : list V := match t with Null => [] | Node _ a x b => in_order a ++ x :: in_order b end.
(** comparisons made by find and insert at most *)
Fixpoint depth (t : tree) : nat := match t with Null => O | Node _ a _ b => S (Nat.max (depth a) (depth b)) end.

(** A tree after the insertions of [vs], latest first, with the flags returned. *)
Fixpoint build (vs : list V) : option (tree * list bool) :=
  match vs with
  | [] => Some (Null, [])
  | v :: vs => match build vs with
               | Some (t, fs) => match insert_ t v with Some (t, f) => Some (t, f :: fs) | None => None end
               | None => None
               end
  end.
End Tree.
Arguments Null {V}. Arguments Node {V}. Arguments level {V}. Arguments lf {V}. Arguments rt {V}. Arguments skew {V}. Arguments split {V}.
Arguments insert_ {V}. Arguments find_ {V}. Arguments find_min {V}. Arguments find_max {V}. Arguments count {V}. Arguments in_order {V}.
Arguments depth {V}. Arguments build {V}.
