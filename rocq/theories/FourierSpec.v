(** What summing over azimuth modes means. *)
From Coq Require Import ZArith List Bool SpecFloat.
From Verif Require Import Dbl FourierModel.
Import ListNotations.
Open Scope nat_scope.

Section Spec.
Variables (g : fcfg) (term : nat -> component).
(** I and Q go with the cosine, U and V with the sine. *)
Definition trig (i k l s : nat) : dbl := if Nat.ltb s 2 then f_cos g i k l else f_sin g i k l.
(** The component of stream [k], Stokes parameter [s]. *)
Definition at_stream (v : nat -> dbl) (k s : nat) : dbl := v ((f_first_mu g + k) * f_stokes g + s).
(** Contribution of mode [i] and the sum of the first [n] modes, in order, on top of what the
    array held before. *)
Definition contribution (w : nat -> nat -> nat -> dbl) (i j k l s : nat) : dbl :=
  dmul (at_stream (w i j) k s) (trig i k l s).
Definition partial (w : nat -> nat -> nat -> dbl) (init : field) (n j k l s : nat) : dbl :=
  fold_left dadd (map (fun i => contribution w i j k l s) (seq 0 n)) (init j k l s).

Definition up (i j : nat) : nat -> dbl := c_p (term i) j.
Definition down (i j : nat) : nat -> dbl := c_m (term i) j.

(** Relative size of the last of [S i] modes in the intensity of one output. *)
Definition settled (w : nat -> nat -> nat -> dbl) (init : field) (i j k l : nat) : Prop :=
  deq (partial w init (S i) j k l 0) d_zero = true \/
  dlt (dabs (ddiv (contribution w i j k l 0) (partial w init (S i) j k l 0))) (f_tol g) = true.
Definition ratio_nan (w : nat -> nat -> nat -> dbl) (init : field) (i j k l : nat) : Prop :=
  deq (partial w init (S i) j k l 0) d_zero = false /\
  ddiv (contribution w i j k l 0) (partial w init (S i) j k l 0) = S754_nan.
Definition output (j k l : nat) : Prop := j < f_levels g /\ k < f_mus g /\ l < f_phis g.
(** Mode [i] changed no requested intensity by the tolerance or more. *)
Definition small (ip im : field) (i : nat) : Prop := forall j k l, output j k l ->
  (f_up g = true -> settled up ip i j k l) /\ (f_down g = true -> settled down im i j k l).
Definition no_nan (ip im : field) (i : nat) : Prop := forall j k l, output j k l ->
  (f_up g = true -> ~ ratio_nan up ip i j k l) /\ (f_down g = true -> ~ ratio_nan down im i j k l).
End Spec.
