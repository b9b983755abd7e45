(** misc/gstruct_dclist.h: the circular doubly linked list (used by utils/input_util.c for the
    lists read from an input file).  The list structure and its nodes live in a heap; using a
    pointer that is NULL, freed or was never stored is a distinct outcome.
    Simplified: malloc() always succeeds (its failure is only reported by the code and the NULL
    pointer then used); the three function pointers are the parameters below; print() is the list
    of the values it is given. *)
From Coq Require Import List Bool Arith.
Import ListNotations.

Section Model.
Variable V : Type.
(** The four comparisons the code makes.  In the [_type] functions: [<=] (312), [<] (320, 325, 420,
    426), [>] (476), [==] (614); in the [_comp] functions the same tests of comp() against 0
    (349, 357, 362, 447, 453, 499, 644). *)
Variables le lt gt eq : V -> V -> bool.

(** struct dclist_node (80-84); [None]: a link never stored. *)
Record cell := { val : V; prev : option nat; next : option nat }.
(** The heap, the next unused address, list->first ([None]: NULL), and the values handed to free_(). *)
Record st := { heap : nat -> option cell; brk : nat; first : option nat; freed : list V }.

Inductive res (A : Type) := Val (a : A) (s : st) | UB | Fuel.
Arguments Val {A}. Arguments UB {A}. Arguments Fuel {A}.
Definition M A := st -> res A.
Definition ret {A} (a : A) : M A := fun s => Val a s.
Definition bind {A B} (m : M A) (k : A -> M B) : M B := fun s => match m s with Val a s' => k a s' | UB => UB | Fuel => Fuel end.
Notation "x <- m ;; k" := (bind m (fun x => k)) (at level 61, m at next level, right associativity).
Notation "m ;; k" := (bind m (fun _ => k)) (at level 61, right associativity).
Definition ub {A} : M A := fun _ => UB.
Definition out {A} : M A := fun _ => Fuel.

Definition put (h : nat -> option cell) (p : nat) (c : option cell) : nat -> option cell :=
  fun q => if q =? p then c else h q.
Definition get_first : M (option nat) := fun s => Val (first s) s.
Definition set_first (f : option nat) : M unit :=
  fun s => Val tt {| heap := heap s; brk := brk s; first := f; freed := freed s |}.
Definition rdc (p : nat) : M cell := fun s => match heap s p with Some c => Val c s | None => UB end.
Definition wrc (p : nat) (c : cell) : M unit :=
  fun s => match heap s p with
           | Some _ => Val tt {| heap := put (heap s) p (Some c); brk := brk s; first := first s; freed := freed s |}
           | None => UB end.
Definition rnext (p : nat) : M nat := c <- rdc p;; match next c with Some q => ret q | None => ub end.
Definition rprev (p : nat) : M nat := c <- rdc p;; match prev c with Some q => ret q | None => ub end.
Definition rval (p : nat) : M V := c <- rdc p;; ret (val c).
Definition wnext (p q : nat) : M unit := c <- rdc p;; wrc p {| val := val c; prev := prev c; next := Some q |}.
Definition wprev (p q : nat) : M unit := c <- rdc p;; wrc p {| val := val c; prev := Some q; next := next c |}.
(** Dereferencing a pointer that may be NULL. *)
Definition deref (p : option nat) : M nat := match p with Some q => ret q | None => ub end.
(** malloc() and the store of the value (253-258). *)
Definition new (v : V) : M nat :=
  fun s => Val (brk s) {| heap := put (heap s) (brk s) (Some {| val := v; prev := None; next := None |});
                          brk := S (brk s); first := first s; freed := freed s |}.
(** free_(&p->value); free(p). *)
Definition release (p : nat) : M unit :=
  fun s => match heap s p with
           | Some c => Val tt {| heap := put (heap s) p None; brk := brk s; first := first s; freed := val c :: freed s |}
           | None => UB end.
Definition is_first (p : nat) : M bool := f <- get_first;; ret match f with Some q => p =? q | None => false end.

(** 128-143 *)
Definition create : st := {| heap := fun _ => None; brk := 0; first := None; freed := [] |}.

(** 148-166, the loop of 156-162.  The loops run at most [n] times here; [Fuel] when that is not enough. *)
Fixpoint empty_loop (n : nat) (pos : nat) : M unit :=
  match n with
  | O => out
  | S n' => tmp <- rnext pos;; release pos;; b <- is_first tmp;; if b then ret tt else empty_loop n' tmp
  end.
Definition empty (n : nat) : M unit :=
  f <- get_first;; match f with Some p => empty_loop n p;; set_first None | None => ret tt end.

(** 200-203 *)
Definition is_empty : M bool := f <- get_first;; ret match f with None => true | _ => false end.

(** 207-223 *)
Fixpoint count_loop (n : nat) (pos c : nat) : M nat :=
  match n with
  | O => out
  | S n' => q <- rnext pos;; b <- is_first q;; if b then ret (S c) else count_loop n' q (S c)
  end.
Definition count (n : nat) : M nat :=
  f <- get_first;; match f with Some p => count_loop n p 0 | None => ret 0 end.

(** 227-245: the values printed, in order (latest first in the accumulator). *)
Fixpoint print_loop (n : nat) (pos : nat) (acc : list V) : M (list V) :=
  match n with
  | O => out
  | S n' => v <- rval pos;; q <- rnext pos;; b <- is_first q;;
            if b then ret (rev (v :: acc)) else print_loop n' q (v :: acc)
  end.
Definition print (n : nat) : M (list V) :=
  f <- get_first;; match f with Some p => print_loop n p [] | None => ret [] end.

(** 374-387 dclist_add() (and 260-270, the same statements in dclist_insert()). *)
Definition add (pos : option nat) (e : nat) : M unit :=
  f <- get_first;;
  match f with
  | None => set_first (Some e);; wprev e e;; wnext e e
  | Some _ =>
      p <- deref pos;;
      wprev e p;; nx <- rnext p;; wnext e nx;;
      a <- rprev e;; wnext a e;;
      b <- rnext e;; wprev b e
  end.
(** 249-273 *)
Definition insert (pos : option nat) (v : V) : M nat := tmp <- new v;; add pos tmp;; ret tmp.

(** 667-673 *)
Definition last_node : M (option nat) :=
  f <- get_first;; match f with None => ret None | Some p => q <- rprev p;; ret (Some q) end.

(** 277-280 *)
Definition insert_end (v : V) : M nat := l <- last_node;; insert l v.
(** 284-297 *)
Definition insert_front (v : V) : M nat :=
  pos <- last_node;; tmp <- insert pos v;; p <- deref pos;; q <- rnext p;; set_first (Some q);; ret tmp.
(** 391-394 *)
Definition add_end (e : nat) : M unit := l <- last_node;; add l e.
(** 398-407 *)
Definition add_front (e : nat) : M unit :=
  pos <- last_node;; add pos e;; p <- deref pos;; q <- rnext p;; set_first (Some q).

(** 324-329 (361-366, 425-430, 452-457): where the loop stops. *)
Fixpoint seek (n : nat) (v : V) (pos : nat) : M nat :=
  match n with
  | O => out
  | S n' =>
      nx <- rnext pos;; w <- rval nx;;
      if lt v w then ret pos
      else nn <- rnext nx;; b <- is_first nn;; if b then ret nx else seek n' v nx
  end.

(** 302-333 dclist_insert_sort_type(), 339-370 dclist_insert_sort_comp() *)
Definition insert_sort (n : nat) (v : V) : M nat :=
  l <- last_node;;
  match l with
  | Some p => w <- rval p;;
      if le w v then insert l v
      else f <- get_first;;
           match f with
           | Some x => u <- rval x;;
               if lt v u then insert_front v else pos <- seek n v x;; insert (Some pos) v
           | None => insert None v
           end
  | None => f <- get_first;;
           match f with
           | Some x => u <- rval x;;
               if lt v u then insert_front v else pos <- seek n v x;; insert (Some pos) v
           | None => insert None v
           end
  end.

(** 413-434 dclist_add_sort_type(), 440-461 dclist_add_sort_comp() *)
Definition add_sort (n : nat) (e : nat) : M unit :=
  f <- get_first;;
  match f with
  | Some x => v <- rval e;; u <- rval x;;
      if lt v u then add_front e else pos <- seek n v x;; add (Some pos) e
  | None => add None e
  end.

(** 555-568 dclist_remove() (511-528 dclist_delete() makes the same changes and then frees). *)
Definition remove_node (pos : nat) : M nat :=
  nx <- rnext pos;;
  (if pos =? nx then set_first None
   else b <- is_first pos;;
        (if b then set_first (Some nx) else ret tt);;
        p <- rprev pos;; nx1 <- rnext pos;; wnext p nx1;;
        nx2 <- rnext pos;; p2 <- rprev pos;; wprev nx2 p2);;
  ret pos.
Definition delete (pos : nat) : M unit := remove_node pos;; release pos.

(** 467-484 dclist_sort_type(), 490-507 dclist_sort_comp(); [n] bounds the outer loop, [k] the inner. *)
Fixpoint sort_loop (n k : nat) (pos : nat) : M unit :=
  match n with
  | O => out
  | S n' =>
      nx <- rnext pos;; b <- is_first nx;;
      if b then ret tt else
      v <- rval pos;; w <- rval nx;;
      if gt v w then tmp <- remove_node nx;; add_sort k tmp;; sort_loop n' k pos
      else sort_loop n' k nx
  end.
Definition sort (n k : nat) : M unit :=
  f <- get_first;; match f with Some p => sort_loop n k p | None => ret tt end.

(** 602-626 dclist_find_type(), 632-656 dclist_find_comp() *)
Fixpoint find_loop (n : nat) (v : V) (pos : nat) : M (option nat) :=
  match n with
  | O => out
  | S n' => w <- rval pos;;
            if eq v w then ret (Some pos)
            else q <- rnext pos;; b <- is_first q;; if b then ret None else find_loop n' v q
  end.
Definition find_node (n : nat) (v : V) : M (option nat) :=
  f <- get_first;; match f with Some p => find_loop n v p | None => ret None end.
(** 533-539, 545-551 *)
Definition delete_value (n : nat) (v : V) : M unit :=
  p <- find_node n v;; match p with Some q => delete q | None => ret tt end.
(** 574-582, 588-596 *)
Definition remove_value (n : nat) (v : V) : M (option nat) :=
  p <- find_node n v;; match p with Some q => r <- remove_node q;; ret (Some r) | None => ret None end.

(** The calls a program makes. *)
Inductive op :=
| OInsert (pos : nat) (v : V) | OInsertEnd (v : V) | OInsertFront (v : V) | OInsertSort (v : V)
| OAdd (pos e : nat) | OAddEnd (e : nat) | OAddFront (e : nat) | OAddSort (e : nat) | OSort
| ODelete (pos : nat) | ODeleteValue (v : V) | ORemove (pos : nat) | ORemoveValue (v : V) | OEmpty
| OIsEmpty | OCount | OPrint | OFind (v : V) | OFirst | OLast | ORetreat (pos : nat) | OAdvance (pos : nat) | OValue (pos : nat).
Inductive answer := AUnit | ANode (p : nat) | AMaybe (p : option nat) | ABool (b : bool) | ACount (n : nat) | AVals (l : list V) | AVal (v : V).

(** [n]: the bound on every loop (660-701 the accessors). *)
Definition call (n : nat) (o : op) : M answer :=
  match o with
  | OInsert p v => q <- insert (Some p) v;; ret (ANode q)
  | OInsertEnd v => q <- insert_end v;; ret (ANode q)
  | OInsertFront v => q <- insert_front v;; ret (ANode q)
  | OInsertSort v => q <- insert_sort n v;; ret (ANode q)
  | OAdd p e => add (Some p) e;; ret AUnit
  | OAddEnd e => add_end e;; ret AUnit
  | OAddFront e => add_front e;; ret AUnit
  | OAddSort e => add_sort n e;; ret AUnit
  | OSort => sort n n;; ret AUnit
  | ODelete p => delete p;; ret AUnit
  | ODeleteValue v => delete_value n v;; ret AUnit
  | ORemove p => q <- remove_node p;; ret (ANode q)
  | ORemoveValue v => q <- remove_value n v;; ret (AMaybe q)
  | OEmpty => empty n;; ret AUnit
  | OIsEmpty => b <- is_empty;; ret (ABool b)
  | OCount => c <- count n;; ret (ACount c)
  | OPrint => l <- print n;; ret (AVals l)
  | OFind v => p <- find_node n v;; ret (AMaybe p)
  | OFirst => f <- get_first;; ret (AMaybe f)
  | OLast => l <- last_node;; ret (AMaybe l)
  | ORetreat p => q <- rprev p;; ret (ANode q)
  | OAdvance p => q <- rnext p;; ret (ANode q)
  | OValue p => v <- rval p;; ret (AVal v)
  end.
End Model.

Arguments val {V}.
Arguments prev {V}.
Arguments next {V}.
Arguments heap {V}.
Arguments brk {V}.
Arguments first {V}.
Arguments freed {V}.
Arguments get_first {V}.
Arguments set_first {V}.
Arguments rdc {V}.
Arguments wrc {V}.
Arguments rnext {V}.
Arguments rprev {V}.
Arguments rval {V}.
Arguments wnext {V}.
Arguments wprev {V}.
Arguments deref {V}.
Arguments new {V}.
Arguments release {V}.
Arguments is_first {V}.
Arguments create {V}.
Arguments empty_loop {V}.
Arguments empty {V}.
Arguments is_empty {V}.
Arguments count_loop {V}.
Arguments count {V}.
Arguments print_loop {V}.
Arguments print {V}.
Arguments add {V}.
Arguments insert {V}.
Arguments last_node {V}.
Arguments insert_end {V}.
Arguments insert_front {V}.
Arguments add_end {V}.
Arguments add_front {V}.
Arguments seek {V}.
Arguments insert_sort {V}.
Arguments add_sort {V}.
Arguments remove_node {V}.
Arguments delete {V}.
Arguments sort_loop {V}.
Arguments sort {V}.
Arguments find_loop {V}.
Arguments find_node {V}.
Arguments delete_value {V}.
Arguments remove_value {V}.
Arguments call {V}.
Arguments OInsert {V}.
Arguments OInsertEnd {V}.
Arguments OInsertFront {V}.
Arguments OInsertSort {V}.
Arguments OAdd {V}.
Arguments OAddEnd {V}.
Arguments OAddFront {V}.
Arguments OAddSort {V}.
Arguments OSort {V}.
Arguments ODelete {V}.
Arguments ODeleteValue {V}.
Arguments ORemove {V}.
Arguments ORemoveValue {V}.
Arguments OEmpty {V}.
Arguments OIsEmpty {V}.
Arguments OCount {V}.
Arguments OPrint {V}.
Arguments OFind {V}.
Arguments OFirst {V}.
Arguments OLast {V}.
Arguments ORetreat {V}.
Arguments OAdvance {V}.
Arguments OValue {V}.
Arguments AUnit {V}.
Arguments ANode {V}.
Arguments AMaybe {V}.
Arguments ABool {V}.
Arguments ACount {V}.
Arguments AVals {V}.
Arguments AVal {V}.
Arguments Val {V A}. Arguments UB {V A}. Arguments Fuel {V A}.
Arguments ret {V A}. Arguments bind {V A B}. Arguments ub {V A}. Arguments out {V A}. Arguments put {V}.
Notation "x <- m ;; k" := (bind m (fun x => k)) (at level 61, m at next level, right associativity).
Notation "m ;; k" := (bind m (fun _ => k)) (at level 61, right associativity).
