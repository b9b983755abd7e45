(** What single scattering is: the radiation satisfies the equation of transfer in every layer, is continuous from layer to layer and
    has the given value where it enters.  No reference to how the code computes it. *)
From Coq Require Import Reals Arith.
Open Scope R_scope.

(** A field: what is seen in the direction looked at, in each layer, at each depth below its top *)
Definition field := nat -> R -> R.
(** The beam, weakened on its way, scattered once into the direction looked at *)
Definition beam_source (F0 : R) (omega P btran slant : nat -> R) : field :=
  fun i t => F0 / (4 * PI) * omega i * P i * (btran i * exp (- slant i * t)).
(** Radiation going up: what is added and lost on the way from the bottom of the layer, and the field entering at the bottom *)
Definition goes_up (n : nat) (thick : nat -> R) (mu : R) (J : field) (entering : R) (F : field) : Prop :=
  (forall i t, (i < n)%nat -> 0 <= t <= thick i -> derivable_pt_lim (F i) t ((F i t - J i t) / mu)) /\
  (forall i, (S i < n)%nat -> F i (thick i) = F (S i) 0) /\
  (forall i, S i = n -> F i (thick i) = entering).
(** Radiation going down *)
Definition goes_down (n : nat) (thick : nat -> R) (mu : R) (J : field) (entering : R) (F : field) : Prop :=
  (forall i t, (i < n)%nat -> 0 <= t <= thick i -> derivable_pt_lim (F i) t ((J i t - F i t) / mu)) /\
  (forall i, (S i < n)%nat -> F i (thick i) = F (S i) 0) /\
  F 0%nat 0 = entering.
(** The value of a field at level [l], the boundary between layers [l - 1] and [l] *)
Definition at_level (n : nat) (thick : nat -> R) (F : field) (l : nat) (y : R) : Prop :=
  ((l < n)%nat -> y = F l 0) /\ ((0 < l)%nat -> y = F (l - 1)%nat (thick (l - 1)%nat)).
(** The value [y] is what is wanted at output [k]: at a level, or at a depth in a layer *)
Definition wanted (n : nat) (thick : nat -> R) (F : field) (taus : bool) (l : nat) (u y : R) : Prop :=
  if taus then y = F l u else at_level n thick F l y.
(** Requests the library accepts (C11, C19): levels in increasing order, or depths in layers in increasing order *)
Definition levels_asked (n m : nat) (ul : nat -> nat) : Prop :=
  (0 < m)%nat /\ (forall k, (k < m)%nat -> (ul k <= n)%nat) /\ (forall k, (S k < m)%nat -> (ul k < ul (S k))%nat).
Definition depths_asked (n m : nat) (ul : nat -> nat) : Prop :=
  (0 < m)%nat /\ (forall k, (k < m)%nat -> (ul k < n)%nat) /\ (forall k, (S k < m)%nat -> (ul k <= ul (S k))%nat).
Definition asked (n m : nat) (ul : nat -> nat) (taus : bool) : Prop := if taus then depths_asked n m ul else levels_asked n m ul.
(** The depths are inside their layers *)
Definition inside (m : nat) (ul : nat -> nat) (ut : nat -> R) (thick : nat -> R) (taus : bool) : Prop :=
  taus = true -> forall k, (k < m)%nat -> 0 <= ut k <= thick (ul k).
