(** What the radiances of a stack of layers are, with and without a surface below it. *)
From Coq Require Import Reals Bool Arith ZArith.
From Verif Require Import Base AddingModel AddingSpec.
Open Scope R_scope.

(** The layers 0 to m above the face [f], with [down0] falling on the top: [up0] leaves the top, [downm] falls on the face
    and [upm] leaves it. *)
Definition field (n m : nat) (ls : nat -> layer) (f : face) (down0 up0 downm upm : vec) : Prop :=
  through n m ls down0 upm up0 downm /\ reflects n f downm upm.
(** The arrays [p], [m] hold the upward and the downward radiances at the output levels, where level 0 is the top and N
    the bottom. *)
Definition shows (N nu : nat) (ul : nat -> nat) (p m : nat -> vec) (up0 down0 upN downN : vec) : Prop :=
  forall i, (i < nu)%nat -> (ul i = 0%nat -> p i = up0 /\ m i = down0) /\ (ul i = N -> p i = upN /\ m i = downN).
(** Output levels for adding: the top, the bottom, or both in this order *)
Definition ends_only (N nu : nat) (ul : nat -> nat) : Prop :=
  (0 < N)%nat /\
  (nu = 1%nat /\ (ul 0%nat = 0%nat \/ ul 0%nat = N) \/ nu = 2%nat /\ ul 0%nat = 0%nat /\ ul 1%nat = N).
