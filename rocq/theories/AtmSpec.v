(** The light of a stack of layers above a surface, and what it means that layers and surface do not create light. *)
From Coq Require Import Reals Bool Arith.
From Verif Require Import DeltaMSpec AddingModel AddingSpec EigModel EigSpec.
Open Scope R_scope.

Definition minus (u v : vec) : vec := fun i => u i - v i.
(** The square of the length of a vector of radiances, with the weights [g] (quadrature weight times cosine) *)
Definition power (n : nat) (g v : vec) : R := total n (fun i => g i * (v i * v i)).
(** No light in the directions with weight *)
Definition dark (n : nat) (g v : vec) : Prop := forall i, (i < n)%nat -> 0 < g i -> v i = 0.
(** A face that does not amplify differences of the light that falls on it *)
Definition passive_face (n : nat) (g : vec) (f : face) : Prop := forall d u d' u', reflects n f d u -> reflects n f d' u' ->
  power n g (minus u u') <= power n g (minus d d').
(** A layer that does not amplify differences, and reflects less than what falls on it *)
Definition absorbing (n : nat) (g : vec) (l : layer) : Prop := forall d1 u2 u1 d2 d1' u2' u1' d2', interacts n l d1 u2 u1 d2 -> interacts n l d1' u2' u1' d2' ->
  power n g (minus u1 u1') + power n g (minus d2 d2') <= power n g (minus d1 d1') + power n g (minus u2 u2') /\
  (veq n u2 u2' -> (dark n g (minus d1 d1') -> veq n u1 u1') /\ (~ dark n g (minus d1 d1') -> power n g (minus u1 u1') < power n g (minus d1 d1'))) /\
  (veq n d1 d1' -> (dark n g (minus u2 u2') -> veq n d2 d2') /\ (~ dark n g (minus u2 u2') -> power n g (minus d2 d2') < power n g (minus u2 u2'))).

(** The equation of transfer in one layer, with the beam and thermal emission as sources *)
Definition lit (n : nat) (solar thermal : bool) (x : slab) (Ip Im : beam) : Prop :=
  transfers n (qx x) (qw x) ((1 + (if zeroth x then 1 else 0)) / 4 * omega x) (P_pp x) (P_mp x)
    (source solar thermal (omega x) (flux0 x) (btran x) (as_0 x) (planck0 x) (planck1 x) (ltau x) (Q_pm x))
    (source solar thermal (omega x) (flux0 x) (btran x) (as_0 x) (planck0 x) (planck1 x) (ltau x) (Q_mm x)) (ltau x) Ip Im.
(** The layers 0 to m between two levels: the equation in every layer, no jump at the levels between them; [t] falls on the top. *)
Definition between (n m : nat) (solar thermal : bool) (xs : nat -> slab) (t : vec) (Ip Im : nat -> beam) : Prop :=
  (forall k, (k <= m)%nat -> lit n solar thermal (xs k) (Ip k) (Im k)) /\
  (forall k i, (k < m)%nat -> (i < n)%nat -> Im (S k) i 0 = Im k i (ltau (xs k)) /\ Ip k i (ltau (xs k)) = Ip (S k) i 0) /\
  (forall i, (i < n)%nat -> Im 0%nat i 0 = t i).
(** The light of the atmosphere above a surface that reflects with [Rs] and emits [b] *)
Definition atmosphere (n m : nat) (solar thermal : bool) (xs : nat -> slab) (Rs : mat) (t b : vec) (Ip Im : nat -> beam) : Prop :=
  between n m solar thermal xs t Ip Im /\
  (forall i, (i < n)%nat -> Ip m i (ltau (xs m)) = total n (fun j => Rs i j * Im m j (ltau (xs m))) + b i).
(** Two fields of light are the same in every layer. *)
Definition same_light (n m : nat) (xs : nat -> slab) (Ip Im Ip' Im' : nat -> beam) : Prop :=
  forall k i s, (k <= m)%nat -> (i < n)%nat -> 0 <= s <= ltau (xs k) -> Ip k i s = Ip' k i s /\ Im k i s = Im' k i s.
