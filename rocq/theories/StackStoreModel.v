(** The memory and the contents of the layer stacks from one plan to the next: stack_chain_alloc, stack_chain_find and
    stack_chain_free of src/xrtm_stacks.c, the part of xrtm_update_varied_layers (src/xrtm_interface.c 5453-5483) and of
    xrtm_destroy (1862-1866) that calls them, and build_layer_stacks (src/xrtm_model.c 2387-2511).

    Simplified: the arrays of one stack are one allocation, of one of two shapes (a single layer has derivative matrices, a
    combined stack has the auxiliary matrices of the addition; both are chosen by the position in the chain).  Allocation
    does not fail.  The contents of one Fourier term are followed; a solution that does not reach that term leaves it alone.
    The contents of an array are named by the versions of the inputs of the layers it was computed from. *)
From Coq Require Import List Bool Arith ZArith Lia.
From Verif Require Import Base StackModel.
Import ListNotations.
Open Scope nat_scope.

(** stack_data, xrtm_stacks.h 20-54: what build_stack_chain wrote, the arrays, [allocated] and [new_] of the term *)
Record held := { hk : stk; arr : nat; alloc : bool; fresh : bool }.
(** The reflection and transmission matrices: None before they are computed, else the versions of the layers.  The
    auxiliary matrices of the addition, kept for the next source vectors: where the stack was split, and the versions. *)
Record content := { rt : option (list nat); ax : option (nat * list nat) }.
Definition blank : content := {| rt := None; ax := None |}.
(** an allocation: its name and whether it has the shape of a single layer *)
Definition block := (nat * bool)%type.

(** stack_chain_find, xrtm_stacks.c 739-750 *)
Definition same_layers (a b : stk) : bool := Nat.eqb (i1 a) (i1 b) && Nat.eqb (i2 a) (i2 b).
Fixpoint find_from (i : nat) (x : stk) (o : list held) : option nat :=
  match o with
  | [] => None
  | h :: o => if same_layers (hk h) x then Some i else find_from (S i) x o
  end.
Definition give (h : held) : held := {| hk := hk h; arr := arr h; alloc := false; fresh := fresh h |}.
Fixpoint upd {A} (k : nat) (f : A -> A) (l : list A) : list A :=
  match l, k with
  | [], _ => []
  | x :: l, O => f x :: l
  | x :: l, S k => x :: upd k f l
  end.

(** stack_chain_alloc, 429-605: the loop over the new stacks from the [i]-th on.  Yields the old chain, the new one, the
    allocations and the next unused name. *)
Record handed := { h_old : list held; h_new : list held; h_heap : list block; h_next : nat }.
Fixpoint hand (n i : nat) (o : list held) (t : list stk) (heap : list block) (nxt : nat) : handed :=
  match t with
  | [] => {| h_old := o; h_new := []; h_heap := heap; h_next := nxt |}
  | x :: t =>
      match find_from 0 x o with
      | Some ii =>
          (* 452-489; [ii] is below the length of [o] *)
          match nth_error o ii with
          | Some ho =>
              let r := hand n (S i) (upd ii give o) t heap nxt in
              {| h_old := h_old r; h_new := {| hk := x; arr := arr ho; alloc := true; fresh := false |} :: h_new r; h_heap := h_heap r; h_next := h_next r |}
          | None => {| h_old := o; h_new := []; h_heap := heap; h_next := nxt |}
          end
      | None =>
          (* 491-593 *)
          let r := hand n (S i) o t ((nxt, i <? n) :: heap) (S nxt) in
          {| h_old := h_old r; h_new := {| hk := x; arr := nxt; alloc := true; fresh := true |} :: h_new r; h_heap := h_heap r; h_next := h_next r |}
      end
  end.

(** stack_chain_free, 612-732: freeing what is not allocated, or with the other shape, is undefined *)
Definition same_block (a b : block) : bool := Nat.eqb (fst a) (fst b) && Bool.eqb (snd a) (snd b).
Fixpoint release (b : block) (heap : list block) : option (list block) :=
  match heap with
  | [] => None
  | c :: heap => if same_block c b then Some heap else match release b heap with Some heap => Some (c :: heap) | None => None end
  end.
Fixpoint chain_free (n i : nat) (o : list held) (heap : list block) : outcome (list block) :=
  match o with
  | [] => Ok heap
  | h :: o => if alloc h then match release (arr h, i <? n) heap with Some heap => chain_free n (S i) o heap | None => UB end
              else chain_free n (S i) o heap
  end.

(** The parts of xrtm_data: d->stack_chain and d->n_stacks, the allocations, the contents, the inputs of each layer and
    whether they changed since the layer was last computed (dep_flags_layer_R_T_S_U_W_V) *)
Record store := { chain : option (list held); heap : list block; nxt : nat; cont : nat -> content; ver : nat -> nat; dirty : nat -> bool }.
Definition store0 : store := {| chain := None; heap := []; nxt := 0; cont := fun _ => blank; ver := fun _ => 0; dirty := fun _ => true |}.

(** xrtm_update_varied_layers, 5453-5483, with the flags of the layers *)
Definition update (n nd : nat) (derivs : nat -> nat -> bool) (s : store) : outcome store :=
  match build (n * n) n nd (S (n * nd)) derivs with
  | Some (Ok t) =>
      let r := hand n 0 (match chain s with Some o => o | None => [] end) t (heap s) (nxt s) in
      match chain_free n 0 (h_old r) (h_heap r) with
      | Ok hp => Ok {| chain := Some (h_new r); heap := hp; nxt := h_next r;
                       cont := fun a => if nxt s <=? a then blank else cont s a; ver := ver s; dirty := dirty s |}
      | Err e => Err e
      | UB => UB
      end
  | Some (Err e) => Err e
  | Some UB => UB
  | None => UB
  end.

(** build_layer_stacks, 2434-2507: the loop over the stacks from the [i]-th on, [tch] being [touched] of the earlier ones.
    [full] is misc_input.use_rebuild_stacks. *)
Definition cat (a b : option (list nat)) : option (list nat) := match a, b with Some a, Some b => Some (a ++ b) | _, _ => None end.
Definition put (a : nat) (c : content) (f : nat -> content) : nat -> content := fun x => if Nat.eqb x a then c else f x.
Definition used (h : held) : held := {| hk := hk h; arr := arr h; alloc := alloc h; fresh := false |}.
Fixpoint solve_from (n : nat) (full : bool) (vr : nat -> nat) (dt : nat -> bool) (all : list held) (i : nat) (tch : list bool) (rest : list held)
  (f : nat -> content) : outcome (list held * (nat -> content)) :=
  match rest with
  | [] => Ok ([], f)
  | h :: rest =>
      if i <? n then
        let t := dt i || full in
        match solve_from n full vr dt all (S i) (tch ++ [t]) rest (if t then put (arr h) {| rt := Some [vr i]; ax := None |} f else f) with
        | Ok (l, f) => Ok (h :: l, f)
        | Err e => Err e
        | UB => UB
        end
      else
        match parents (hk h) with
        | Some (p, q) =>
            match nth_error tch p, nth_error tch q, nth_error all p, nth_error all q with
            | Some tp, Some tq, Some hp, Some hq =>
                let t := tp || tq || fresh h || full in
                let v := cat (rt (f (arr hp))) (rt (f (arr hq))) in
                let f := if negb (fresh h) && negb t then f
                         else put (arr h) {| rt := v; ax := match v with Some v => Some (i2 (hk hp), v) | None => None end |} f in
                match solve_from n full vr dt all (S i) (tch ++ [t]) rest f with
                | Ok (l, f) => Ok (used h :: l, f)
                | Err e => Err e
                | UB => UB
                end
            | _, _, _, _ => UB
            end
        | None => UB
        end
  end.
(** A solution by adding with stack reuse; without a plan it is refused (xrtm_interface.c 2635-2640) *)
Definition solve (n : nat) (full : bool) (s : store) : outcome store :=
  match chain s with
  | None => Err (-1)%Z
  | Some c => match solve_from n full (ver s) (dirty s) c 0 [] c (cont s) with
              | Ok (c, f) => Ok {| chain := Some c; heap := heap s; nxt := nxt s; cont := f; ver := ver s; dirty := fun i => if i <? n then false else dirty s i |}
              | Err e => Err e
              | UB => UB
              end
  end.
(** An input of layer [l] is set *)
Definition touch (l : nat) (s : store) : store :=
  {| chain := chain s; heap := heap s; nxt := nxt s; cont := cont s; ver := fun i => if Nat.eqb i l then S (ver s i) else ver s i; dirty := fun i => if Nat.eqb i l then true else dirty s i |}.
(** xrtm_destroy, 1862-1866 *)
Definition destroy (n : nat) (s : store) : outcome (list block) :=
  match chain s with None => Ok (heap s) | Some c => chain_free n 0 c (heap s) end.

Inductive sop := Update (derivs : nat -> nat -> bool) | Touch (l : nat) | Solve.
Definition sstep (n nd : nat) (full : bool) (o : sop) (s : store) : outcome store :=
  match o with Update d => update n nd d s | Touch l => Ok (touch l s) | Solve => match solve n full s with Err _ => Ok s | r => r end end.
Fixpoint srun (n nd : nat) (full : bool) (os : list sop) (s : store) : outcome store :=
  match os with
  | [] => Ok s
  | o :: os => match sstep n nd full o s with Ok s => srun n nd full os s | Err e => Err e | UB => UB end
  end.
