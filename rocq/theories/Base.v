(** Shared vocabulary of the xrtm model: masks, result codes, outcomes. *)
From Coq Require Import ZArith NArith List Bool Lia.
Import ListNotations.

(** Return codes (src/xrtm_interface.h:33 [XRTM_INT_ERROR = -INT_MAX]; the literal -1
    is used by several internal paths).  Codes are kept apart because the
    callers test [== XRTM_INT_ERROR] in one place (xrtm_interface.c:774). *)
Definition RET_OK : Z := 0%Z.
Definition RET_ERR : Z := (-2147483647)%Z.
Definition RET_M1 : Z := (-1)%Z.

(** C expression [a & m] used as a condition: true when some bit of [m] is in [a]. *)
Definition tst (a m : N) : bool := negb (N.eqb (N.land a m) 0).

(** Mask with the single bit [k], C [1L<<k]. *)
Definition bit (k : N) : N := N.shiftl 1 k.

(** Bitwise or of a list of masks, C [A | B | C]. *)
Definition ors (l : list N) : N := fold_right N.lor 0%N l.

(** Outcome of an API call: a value, an error code, or undefined behaviour. *)
Inductive outcome (A : Type) : Type :=
| Ok (a : A)
| Err (code : Z)
| UB.
Arguments Ok {A} _.
Arguments Err {A} _.
Arguments UB {A}.
