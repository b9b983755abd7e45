(** Vocabulary of C32: the path a sequence of calls stands at, kept as the stack of strings
    encoded and not yet decoded; no hashes. *)
From Coq Require Import ZArith List Bool.
From Verif Require Import Base SaveTreeModel.
Import ListNotations.
Open Scope Z_scope.

(** Current path (latest string first) and the paths of the callers. *)
Record place := { path : list (list Z); callers : list (list (list Z)) }.
Definition at_start : place := {| path := []; callers := [] |}.
Definition text (p : list (list Z)) : list Z := concat (rev p).
Definition key (p : list (list Z)) : Z := djb2 5381 (text p).
(** What a function may decode: the strings it encoded itself. *)
Definition own (pl : place) : Prop := (length (match callers pl with c :: _ => c | [] => [] end) < length (path pl))%nat.
Definition room (p : list (list Z)) : Prop := (length p < 127)%nat.
(** [goes pl o pl']: the call [o] is one a well-behaved function makes at [pl], and leads to [pl']. *)
Inductive goes (pl : place) : op -> place -> Prop :=
| goes_s s : room (path pl) -> goes pl (EncodeS s) {| path := s :: path pl; callers := callers pl |}
| goes_i i : room (path pl) -> goes pl (EncodeI i) {| path := chars_i i :: path pl; callers := callers pl |}
| goes_ij i j : room (path pl) -> goes pl (EncodeIJ i j) {| path := chars_ij i j :: path pl; callers := callers pl |}
| goes_d : own pl -> goes pl Decode {| path := tl (path pl); callers := callers pl |}
| goes_rs s : own pl -> goes pl (RecodeS s) {| path := s :: tl (path pl); callers := callers pl |}
| goes_ri i : own pl -> goes pl (RecodeI i false) {| path := chars_i i :: tl (path pl); callers := callers pl |}
| goes_ri1 i : room (path pl) -> goes pl (RecodeI i true) {| path := chars_i i :: path pl; callers := callers pl |}
| goes_rij i j : own pl -> goes pl (RecodeIJ i j false) {| path := chars_ij i j :: tl (path pl); callers := callers pl |}
| goes_rij1 i j : room (path pl) -> goes pl (RecodeIJ i j true) {| path := chars_ij i j :: path pl; callers := callers pl |}
| goes_ret n : goes pl (Retrieve n) pl
| goes_prox s n : key (path pl) <> djb2 5381 s -> goes pl (Proxy s n) pl
| goes_enter : goes pl Enter {| path := path pl; callers := path pl :: callers pl |}
| goes_leave c cs : callers pl = c :: cs -> goes pl Leave {| path := c; callers := cs |}.
(** Histories of calls with the answers given, latest first. *)
Inductive history (pl0 : place) (st0 : store) : list (op * option (Z * bool)) -> place -> store -> Prop :=
| h_nil : history pl0 st0 [] pl0 st0
| h_call t pl st o pl' st' r : history pl0 st0 t pl st -> goes pl o pl' -> exec st o = Ok (st', r) -> history pl0 st0 ((o, r) :: t) pl' st'.
