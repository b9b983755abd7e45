(** What name tables, comma lists and character buffers mean. *)
From Coq Require Import ZArith List Bool String Ascii.
Import ListNotations.
Open Scope Z_scope.

(** Separators of a list of names: comma, blank, tab. *)
Definition separator (c : ascii) : Prop := c = ","%char \/ c = " "%char \/ c = "009"%char.
Fixpoint chars (s : string) : list ascii := match s with EmptyString => [] | String c s => c :: chars s end.
Definition word (x : string) : Prop := x <> EmptyString /\ forall c, In c (chars x) -> ~ separator c.
(** [lists s xs]: the text [s] lists the words [xs], separated by one or more separators. *)
Inductive lists : string -> list string -> Prop :=
| L_nil : lists EmptyString []
| L_sep : forall c s xs, separator c -> lists s xs -> lists (String c s) xs
| L_last : forall x, word x -> lists x [x]
| L_cons : forall x c s xs, word x -> separator c -> lists s xs -> lists (x ++ String c s) (x :: xs).

(** The characters of [s] followed by a null are at the start of [b]; everything behind is as
    in [b0]. *)
Definition holds (b b0 : Z -> ascii) (s : string) : Prop :=
  (forall k c, String.get k s = Some c -> b (Z.of_nat k) = c) /\
  b (Z.of_nat (String.length s)) = zero /\
  (forall k, k < 0 \/ Z.of_nat (String.length s) < k -> b k = b0 k).

(** Indices of the bits of [mask] below [n], increasing. *)
Definition set_bits (mask : Z) (n : nat) : list Z := filter (fun i => Z.testbit mask i) (map Z.of_nat (seq 0 n)).
