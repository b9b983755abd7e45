(** What the list operations mean on sequences. *)
From Coq Require Import List Bool Arith.
From Verif Require Import DCListModel.
Import ListNotations.

Section Spec.
Variable V : Type.
Variables le lt gt eq : V -> V -> bool.

(** The nodes of the list with their values, in order; the nodes taken out of it and not put back;
    the values released so far; the name of the next node. *)
Record seq := { items : list (nat * V); loose : list (nat * V); gone : list V; fresh : nat }.
Definition start : seq := {| items := []; loose := []; gone := []; fresh := 0 |}.

Definition name (x : nat * V) : nat := fst x.
Definition has (p : nat) (l : list (nat * V)) : bool := existsb (fun x => fst x =? p) l.
Definition lookup (p : nat) (l : list (nat * V)) : option V :=
  match find (fun x => fst x =? p) l with Some x => Some (snd x) | None => None end.
Definition drop (p : nat) (l : list (nat * V)) : list (nat * V) := filter (fun x => negb (fst x =? p)) l.

(** Directly behind node [p]. *)
Fixpoint behind (p : nat) (x : nat * V) (l : list (nat * V)) : list (nat * V) :=
  match l with
  | [] => [x]
  | y :: l' => if fst y =? p then y :: x :: l' else y :: behind p x l'
  end.
(** In front of the first greater value. *)
Fixpoint in_order (x : nat * V) (l : list (nat * V)) : list (nat * V) :=
  match l with
  | [] => [x]
  | y :: l' => if lt (snd x) (snd y) then x :: l else y :: in_order x l'
  end.
Definition sorted_items (l : list (nat * V)) : list (nat * V) := fold_left (fun acc x => in_order x acc) l [].

(** The neighbours in the closed ring. *)
Fixpoint after (p : nat) (l : list nat) (wrap : nat) : option nat :=
  match l with
  | [] => None
  | x :: l' => if x =? p then Some (match l' with y :: _ => y | [] => wrap end) else after p l' wrap
  end.
Definition succ_of (p : nat) (l : list nat) : option nat := match l with [] => None | x :: _ => after p l x end.
Definition pred_of (p : nat) (l : list nat) : option nat := succ_of p (rev l).

Definition put_items (a : seq) (l : list (nat * V)) : seq :=
  {| items := l; loose := loose a; gone := gone a; fresh := fresh a |}.
Definition made (a : seq) (l : list (nat * V)) : option (answer V * seq) :=
  Some (ANode (fresh a), {| items := l; loose := loose a; gone := gone a; fresh := S (fresh a) |}).
Definition back (a : seq) (e : nat) (f : V -> list (nat * V)) : option (answer V * seq) :=
  match lookup e (loose a) with
  | Some v => Some (AUnit, {| items := f v; loose := drop e (loose a); gone := gone a; fresh := fresh a |})
  | None => None
  end.
Definition last_item (l : list (nat * V)) : option (nat * V) := hd_error (rev l).
(** Where a position is needed: a node of the list; ignored when there is none. *)
Definition valid_pos (p : nat) (a : seq) : bool := match items a with [] => true | l => has p l end.
Definition found (v : V) (a : seq) : option (nat * V) := find (fun x => eq v (snd x)) (items a).

(** One call: its answer and its effect; [None]: the caller broke the rules. *)
Definition meaning (o : op V) (a : seq) : option (answer V * seq) :=
  let l := items a in
  match o with
  | OInsert p v => if valid_pos p a then made a (behind p (fresh a, v) l) else None
  | OInsertEnd v => made a (l ++ [(fresh a, v)])
  | OInsertFront v => match l with [] => None | _ => made a ((fresh a, v) :: l) end
  | OInsertSort v =>
      match last_item l with
      | Some x => if le (snd x) v then made a (l ++ [(fresh a, v)]) else made a (in_order (fresh a, v) l)
      | None => made a [(fresh a, v)]
      end
  | OAdd p e => if valid_pos p a then back a e (fun v => behind p (e, v) l) else None
  | OAddEnd e => back a e (fun v => l ++ [(e, v)])
  | OAddFront e => match l with [] => None | _ => back a e (fun v => (e, v) :: l) end
  | OAddSort e => back a e (fun v => in_order (e, v) l)
  | OSort => Some (AUnit, put_items a (sorted_items l))
  | ODelete p =>
      match lookup p l with
      | Some v => Some (AUnit, {| items := drop p l; loose := loose a; gone := v :: gone a; fresh := fresh a |})
      | None => None
      end
  | ODeleteValue v =>
      match found v a with
      | Some x => Some (AUnit, {| items := drop (fst x) l; loose := loose a; gone := snd x :: gone a; fresh := fresh a |})
      | None => Some (AUnit, a)
      end
  | ORemove p =>
      match lookup p l with
      | Some v => Some (ANode p, {| items := drop p l; loose := (p, v) :: loose a; gone := gone a; fresh := fresh a |})
      | None => None
      end
  | ORemoveValue v =>
      match found v a with
      | Some x => Some (AMaybe (Some (fst x)), {| items := drop (fst x) l; loose := x :: loose a; gone := gone a; fresh := fresh a |})
      | None => Some (AMaybe None, a)
      end
  | OEmpty => Some (AUnit, {| items := []; loose := loose a; gone := rev (map snd l) ++ gone a; fresh := fresh a |})
  | OIsEmpty => Some (ABool match l with [] => true | _ => false end, a)
  | OCount => Some (ACount (length l), a)
  | OPrint => Some (AVals (map snd l), a)
  | OFind v => Some (AMaybe (option_map fst (found v a)), a)
  | OFirst => Some (AMaybe (hd_error (map fst l)), a)
  | OLast => Some (AMaybe (option_map fst (last_item l)), a)
  | ORetreat p => match pred_of p (map fst l) with Some q => Some (ANode q, a) | None => None end
  | OAdvance p => match succ_of p (map fst l) with Some q => Some (ANode q, a) | None => None end
  | OValue p => match lookup p (l ++ loose a) with Some v => Some (AVal v, a) | None => None end
  end.

Fixpoint meanings (os : list (op V)) (a : seq) : option (list (answer V) * seq) :=
  match os with
  | [] => Some ([], a)
  | o :: os' =>
      match meaning o a with
      | Some (r, a') => match meanings os' a' with Some (rs, b) => Some (r :: rs, b) | None => None end
      | None => None
      end
  end.

(** The comparisons of one total preorder. *)
Record ordering : Prop := {
  lt_asym : forall a b, lt a b = true -> lt b a = false;
  lt_neg_trans : forall a b c, lt a b = false -> lt b c = false -> lt a c = false;
  gt_lt : forall a b, gt a b = lt b a;
  le_lt : forall a b, le a b = negb (lt b a) }.
End Spec.

(** The calls made on the model. *)
Fixpoint calls {V} (le lt gt eq : V -> V -> bool) (n : nat) (os : list (op V)) : M V (list (answer V)) :=
  match os with
  | [] => ret []
  | o :: os' => r <- call le lt gt eq n o;; rs <- calls le lt gt eq n os';; ret (r :: rs)
  end.
Arguments items {V}.
Arguments loose {V}.
Arguments gone {V}.
Arguments fresh {V}.
Arguments start {V}.
Arguments name {V}.
Arguments has {V}.
Arguments lookup {V}.
Arguments drop {V}.
Arguments behind {V}.
Arguments in_order {V}.
Arguments sorted_items {V}.
Arguments put_items {V}.
Arguments made {V}.
Arguments back {V}.
Arguments last_item {V}.
Arguments valid_pos {V}.
Arguments found {V}.
Arguments meaning {V}.
Arguments meanings {V}.
