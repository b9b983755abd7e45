(** The store of forward results for the reverse pass, src/xrtm_save_tree.c.  A ulong is an
    integer modulo 2^64, a string the list of its characters as unsigned bytes, a data block an
    address with its size.  The functions of the library pass save_tree_data by value (e.g.
    src/xrtm_model.c:1770): a callee works on its own copy of [i] but on the same hash array and
    tree; [Enter] and [Leave] are the call and the return.  Memory exhaustion is left out. *)
From Coq Require Import ZArith List Bool.
From Verif Require Import Base AATreeModel.
Import ListNotations.
Open Scope Z_scope.

(** src/xrtm_save_tree.c:17-27; line numbers below are of this file *)
Definition djb2 (hash : Z) (s : list Z) : Z := fold_left (fun h c => (h * 33 + c) mod 2 ^ 64) s hash.
(** src/xrtm_save_tree.h:30-34 *)
Record node := { n_proxy : bool; n_hash : Z; n_d : Z }.
(** 31-39 *)
Definition save_tree_comp (a b : node) : Z := if n_hash a <? n_hash b then -1 else if n_hash a >? n_hash b then 1 else 0.

(** 92-106: the characters of save_tree_encode_i, lowest digit first; C remainder of a negative
    number is negative.  An int has at most ten digits. *)
Fixpoint digits (n : nat) (i : Z) : list Z :=
  match n with
  | O => []
  | S n => (48 + Z.rem i 10) :: (if Z.quot i 10 =? 0 then [] else digits n (Z.quot i 10))
  end.
Definition chars_i (i : Z) : list Z := digits 12 i.
(** "%d" *)
Definition decimal (i : Z) : list Z := if i <? 0 then 45 :: rev (digits 12 (- i)) else rev (digits 12 i).
(** 110-117 *)
Definition chars_ij (i j : Z) : list Z := decimal i ++ 95 :: decimal j.

(** [s_i], the hash array (128 entries, line 63), the tree, the blocks allocated with their sizes,
    and the values of [i] of the callers. *)
Record store := { s_i : Z; s_hash : Z -> option Z; s_tree : tree node; s_blocks : list (Z * Z); s_callers : list Z }.
(** 59-71 *)
Definition init : store := {| s_i := 0; s_hash := fun k => if k =? 0 then Some 5381 else None; s_tree := Null; s_blocks := []; s_callers := [] |}.

Inductive op := EncodeS (s : list Z) | EncodeI (i : Z) | EncodeIJ (i j : Z) | Decode
  | RecodeS (s : list Z) | RecodeI (i : Z) (flag : bool) | RecodeIJ (i j : Z) (flag : bool)
  | Retrieve (size : Z) | Proxy (s : list Z) (size : Z) | Enter | Leave.

Definition cell (st : store) (k : Z) : outcome Z :=
  if (k <? 0) || (k >=? 128) then UB else match s_hash st k with Some h => Ok h | None => UB end.
Definition with_i (st : store) (i : Z) : store :=
  {| s_i := i; s_hash := s_hash st; s_tree := s_tree st; s_blocks := s_blocks st; s_callers := s_callers st |}.
(** 84-88 *)
Definition encode (st : store) (s : list Z) : outcome store :=
  match cell st (s_i st) with
  | Ok h => if s_i st + 1 >=? 128 then UB
            else Ok {| s_i := s_i st + 1; s_hash := fun k => if k =? s_i st + 1 then Some (djb2 h s) else s_hash st k;
                       s_tree := s_tree st; s_blocks := s_blocks st; s_callers := s_callers st |}
  | Err c => Err c | UB => UB
  end.
(** 121-138 *)
Definition decode (st : store) : store := with_i st (s_i st - 1).
(** malloc: a fresh address *)
Definition fresh (st : store) : Z := Z.of_nat (length (s_blocks st)).
Definition probe (h : Z) : node := {| n_proxy := false; n_hash := h; n_d := 0 |}.
(** 171-198.  The node found, or a new one; a NULL from the insertion would be dereferenced. *)
Definition data_retrieve (st : store) (h size : Z) : outcome (store * Z * bool) :=
  match find_ save_tree_comp (s_tree st) (probe h) with
  | Some n => Ok (st, n_d n, false)
  | None =>
      match insert_ save_tree_comp (s_tree st) {| n_proxy := false; n_hash := h; n_d := fresh st |} with
      | Some (t, true) => Ok ({| s_i := s_i st; s_hash := s_hash st; s_tree := t; s_blocks := (fresh st, size) :: s_blocks st; s_callers := s_callers st |}, fresh st, true)
      | _ => UB
      end
  end.
(** 202-205 *)
Definition retrieve (st : store) (size : Z) : outcome (store * Z * bool) :=
  match cell st (s_i st) with Ok h => data_retrieve st h size | Err c => Err c | UB => UB end.
(** 209-236 *)
Definition proxy (st : store) (s : list Z) (size : Z) : outcome (store * Z * bool) :=
  match cell st (s_i st) with
  | Ok h =>
      match find_ save_tree_comp (s_tree st) (probe h) with
      | Some n => Ok (st, n_d n, false)
      | None =>
          match data_retrieve st (djb2 5381 s) size with
          | Ok (st, v, flag) =>
              match insert_ save_tree_comp (s_tree st) {| n_proxy := true; n_hash := h; n_d := v |} with
              | Some (t, true) => Ok ({| s_i := s_i st; s_hash := s_hash st; s_tree := t; s_blocks := s_blocks st; s_callers := s_callers st |}, v, flag)
              | _ => UB
              end
          | Err c => Err c | UB => UB
          end
      end
  | Err c => Err c | UB => UB
  end.
(** One call: the new state and, for a retrieval, the block and the flag "new". *)
Definition silent (x : outcome store) : outcome (store * option (Z * bool)) :=
  match x with Ok st => Ok (st, None) | Err c => Err c | UB => UB end.
Definition answer (x : outcome (store * Z * bool)) : outcome (store * option (Z * bool)) :=
  match x with Ok (st, v, f) => Ok (st, Some (v, f)) | Err c => Err c | UB => UB end.
Definition exec (st : store) (o : op) : outcome (store * option (Z * bool)) :=
  match o with
  | EncodeS s => silent (encode st s)
  | EncodeI i => silent (encode st (chars_i i))
  | EncodeIJ i j => silent (encode st (chars_ij i j))
  | Decode => Ok (decode st, None)
  | RecodeS s => silent (encode (decode st) s)                                                        (* 142-147 *)
  | RecodeI i flag => silent (encode (if flag then st else decode st) (chars_i i))                    (* 151-157 *)
  | RecodeIJ i j flag => silent (encode (if flag then st else decode st) (chars_ij i j))              (* 161-167 *)
  | Retrieve size => answer (retrieve st size)
  | Proxy s size => answer (proxy st s size)
  | Enter => Ok ({| s_i := s_i st; s_hash := s_hash st; s_tree := s_tree st; s_blocks := s_blocks st; s_callers := s_i st :: s_callers st |}, None)
  | Leave => match s_callers st with
             | i :: cs => Ok ({| s_i := i; s_hash := s_hash st; s_tree := s_tree st; s_blocks := s_blocks st; s_callers := cs |}, None)
             | [] => UB
             end
  end.
(** 75-80 with 43-55: the blocks freed by save_tree_free, post-order in the C code; the order is
    not kept here. *)
Definition freed (st : store) : list Z := map n_d (filter (fun n => negb (n_proxy n)) (in_order (s_tree st))).
