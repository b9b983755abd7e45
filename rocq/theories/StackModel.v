(** The plan of layer stacks for reuse adding, src/xrtm_stacks.c: build_stack_chain and the functions it calls.
    (stack_chain_alloc and stack_chain_free are in StackStoreModel.v.)

    Pointers into the table of stacks are indices.  A cell's stack pointer that was never written is [None]; reading it,
    like writing beyond the table, is undefined behaviour. *)
From Coq Require Import List Bool Arith Lia.
From Verif Require Import Base.
Import ListNotations.
Open Scope nat_scope.

(** stack_data, xrtm_stacks.h 20-54: the layers i1 to i2, [stack], [count], p1 and p2 *)
Record stk := { i1 : nat; i2 : nat; needed : bool; count : nat; parents : option (nat * nat) }.
(** grid_data, 19-23 *)
Record cell := { active : bool; varies : bool; sid : option nat }.
Definition grid := nat -> nat -> cell.
Record plan := { tab : list stk; gr : grid }.

(** next_layer, 80-90; rows are counted from the top of the whole grid *)
Fixpoint nl (g : grid) (j k i : nat) : option nat :=
  match k with
  | O => None
  | S k => if varies (g i j) then None else if active (g i j) then Some i else nl g j k (S i)
  end.
Definition next_layer (g : grid) (n i j : nat) : option nat := nl g j (n - i) i.

(** max_set_of_pairs1, 97-157: count, max_c, (cur_s1, cur_s2), (max_s1, max_s2) *)
Record scan := { cnt : nat; maxc : nat; cur : option (nat * nat); best : option (nat * nat) }.
Definition scan0 : scan := {| cnt := 0; maxc := 0; cur := None; best := None |}.
Definition keep (x : scan) : scan := if maxc x <? cnt x then {| cnt := cnt x; maxc := cnt x; cur := cur x; best := cur x |} else x.
(** L1, 138-144 *)
Definition flush (x : scan) : scan := let x := keep x in {| cnt := 0; maxc := maxc x; cur := cur x; best := best x |}.
Definition same_pair (a : option (nat * nat)) (p q : nat) : bool :=
  match a with Some (x, y) => Nat.eqb p x && Nat.eqb q y | None => false end.
(** The body of the loop over the derivatives, 112-145, for row r of a grid of n rows *)
Definition column (g : grid) (n r : nat) (j : nat) (x : scan) : outcome scan :=
  if varies (g r j) then Ok (flush x)
  else if negb (active (g r j)) then Ok x
  else match next_layer g n (S r) j with
       | None => Ok (flush x)
       | Some i =>
           if varies (g i j) then Ok (flush x)
           else match sid (g r j), sid (g i j) with
                | Some p, Some q =>
                    let c := if Nat.eqb (cnt x) 0 then Some (p, q) else cur x in
                    let x := {| cnt := cnt x; maxc := maxc x; cur := c; best := best x |} in
                    if same_pair c p q then Ok {| cnt := S (cnt x); maxc := maxc x; cur := cur x; best := best x |} else Ok (flush x)
                | _, _ => UB
                end
       end.
Fixpoint columns (g : grid) (n r : nat) (js : list nat) (x : scan) : outcome scan :=
  match js with
  | [] => Ok (keep x)
  | j :: js => match column g n r j x with Ok x => columns g n r js x | Err e => Err e | UB => UB end
  end.
Definition max_set_of_pairs (g : grid) (n nd r : nat) : outcome scan := columns g n r (seq 0 nd) scan0.

(** The loop over the rows, 373-389: max_c, and max_i, max_s1, max_s2 *)
Record pick := { pc : nat; pwhat : option (nat * (nat * nat)) }.
Fixpoint rows (g : grid) (n nd : nat) (rs : list nat) (b : pick) : outcome pick :=
  match rs with
  | [] => Ok b
  | r :: rs =>
      match max_set_of_pairs g n nd r with
      | Ok x => rows g n nd rs (if pc b <? maxc x then {| pc := maxc x; pwhat := match best x with Some q => Some (r, q) | None => None end |} else b)
      | Err e => Err e
      | UB => UB
      end
  end.

(** combine_grid_layers, 237-266 *)
Definition bump (s : nat) (t : list stk) : list stk :=
  match nth_error t s with
  | Some k => firstn s t ++ {| i1 := i1 k; i2 := i2 k; needed := needed k; count := S (count k); parents := parents k |} :: skipn (S s) t
  | None => t
  end.
Definition new_stack (t : list stk) (s1 s2 : nat) : outcome stk :=
  match nth_error t s1, nth_error t s2 with
  | Some a, Some b => Ok {| i1 := i1 a; i2 := i2 b; needed := false; count := 0; parents := Some (s1, s2) |}
  | _, _ => UB
  end.
(** the test of 253-257; None when a pointer that was never written is read *)
Definition matches (g : grid) (n r s1 s2 j : nat) : option nat :=
  if active (g r j) then
    match next_layer g n (S r) j with
    | Some i => if (negb (varies (g r j)) && same_pair (match sid (g r j) with Some p => Some (p, 0) | None => None end) s1 0)
                   && (negb (varies (g i j)) && same_pair (match sid (g i j) with Some p => Some (p, 0) | None => None end) s2 0)
                then Some i else None
    | None => None
    end
  else None.
Definition combine_grid (g : grid) (n r s1 s2 k : nat) : grid := fun i j =>
  match matches g n r s1 s2 j with
  | Some i' => if Nat.eqb i r then {| active := active (g i j); varies := varies (g i j); sid := Some k |}
               else if Nat.eqb i i' then {| active := false; varies := varies (g i j); sid := sid (g i j) |}
               else g i j
  | None => g i j
  end.
(** the new stack is written at the end of the table, which holds [size] stacks *)
Definition combine (size n r s1 s2 : nat) (p : plan) : outcome plan :=
  let t := bump s2 (bump s1 (tab p)) in
  let k := length t in
  if k <? size then
    match new_stack t s1 s2 with
    | Ok x => Ok {| tab := t ++ [x]; gr := combine_grid (gr p) n r s1 s2 k |}
    | Err e => Err e
    | UB => UB
    end
  else UB.

(** while (1), 371-403; None when [fuel] rounds are not enough *)
Fixpoint rounds (size n nd fuel : nat) (p : plan) : option (outcome plan) :=
  match fuel with
  | O => None
  | S fuel =>
      match rows (gr p) n nd (seq 0 (n - 1)) {| pc := 0; pwhat := None |} with
      | Ok b => if Nat.eqb (pc b) 0 then Some (Ok p)
                else match pwhat b with
                     | Some (r, (s1, s2)) =>
                         match combine size n r s1 s2 p with Ok p => rounds size n nd fuel p | Err e => Some (Err e) | UB => Some UB end
                     | None => Some UB
                     end
      | Err e => Some (Err e)
      | UB => Some UB
      end
  end.

(** 336-363 *)
Definition first_stacks (n : nat) : list stk :=
  map (fun i => {| i1 := i; i2 := i; needed := false; count := 0; parents := None |}) (seq 0 n).
Definition first_grid (derivs : nat -> nat -> bool) : grid := fun i j =>
  if derivs i j then {| active := false; varies := true; sid := None |} else {| active := true; varies := false; sid := Some i |}.
(** 407-412 *)
Definition need (s : nat) (t : list stk) : list stk :=
  match nth_error t s with
  | Some k => firstn s t ++ {| i1 := i1 k; i2 := i2 k; needed := true; count := count k; parents := parents k |} :: skipn (S s) t
  | None => t
  end.
Fixpoint need_all (g : grid) (cells : list (nat * nat)) (t : list stk) : outcome (list stk) :=
  match cells with
  | [] => Ok t
  | (i, j) :: cells => if active (g i j) then match sid (g i j) with Some s => need_all g cells (need s t) | None => UB end
                       else need_all g cells t
  end.
(** build_stack_chain, 312-423, with a table of [size] stacks *)
Definition build (size n nd fuel : nat) (derivs : nat -> nat -> bool) : option (outcome (list stk)) :=
  if size <? n then Some UB
  else match rounds size n nd fuel {| tab := first_stacks n; gr := first_grid derivs |} with
       | Some (Ok p) => Some (need_all (gr p) (list_prod (seq 0 n) (seq 0 nd)) (tab p))
       | Some (Err e) => Some (Err e)
       | Some UB => Some UB
       | None => None
       end.
(** check_for_duplicates, 273-302: how many stacks repeat the layers of an earlier one (counters of 8 bits) *)
Fixpoint duplicates (seen : nat -> nat -> nat) (t : list stk) : nat :=
  match t with
  | [] => 0
  | s :: t => let c := (seen (i1 s) (i2 s) + 1) mod 256 in
              (if 1 <? c then 1 else 0) +
              duplicates (fun a b => if Nat.eqb a (i1 s) && Nat.eqb b (i2 s) then c else seen a b) t
  end.
