(** Vocabulary of C33: comparison functions, ordered sets, and the balance rules of AA trees. *)
From Coq Require Import ZArith List Bool Sorted.
From Verif Require Import AATreeModel.
Import ListNotations.
Open Scope Z_scope.

(** A comparison function that orders values: opposite signs when swapped, transitive, and equal
    values compare alike. *)
Record orders {V} (comp : V -> V -> Z) : Prop := {
  ord_swap : forall a b, comp a b < 0 <-> comp b a > 0;
  ord_trans : forall a b c, comp a b < 0 -> comp b c < 0 -> comp a c < 0;
  ord_eq_l : forall a b c, comp a b = 0 -> comp b c < 0 -> comp a c < 0;
  ord_eq_r : forall a b c, comp a b < 0 -> comp b c = 0 -> comp a c < 0;
  ord_eq : forall a b c, comp a b = 0 -> comp b c = 0 -> comp a c = 0 }.
Definition ascending {V} (comp : V -> V -> Z) (l : list V) : Prop := StronglySorted (fun a b => comp a b < 0) l.
(** The values kept after a history of insertions, latest first: of values comparing equal
    the one inserted first. *)
Fixpoint kept {V} (comp : V -> V -> Z) (vs : list V) : list V :=
  match vs with
  | [] => []
  | v :: vs => if existsb (fun w => comp v w =? 0) (kept comp vs) then kept comp vs else v :: kept comp vs
  end.
(** Balance: a left child is one level below its parent, a right child at most on the level of
    its parent and at least one below, and no two right links in a row stay on a level. *)
Fixpoint balanced {V} (t : tree V) : Prop :=
  match t with
  | Null => True
  | Node k a _ b => level a = k - 1 /\ (level b = k - 1 \/ level b = k) /\ level (rt b) < k /\ 1 <= k /\ balanced a /\ balanced b
  end.
