(** Integration by a finite sum.  No reference to how the code finds the points. *)
From Coq Require Import Reals.
From Verif Require Import DeltaMSpec ScatSpec.
Open Scope R_scope.

(** A polynomial of a degree of at most [d] *)
Definition polynomial (d : nat) (f : R -> R) : Prop := exists a : nat -> R, forall x, f x = total (S d) (fun k => a k * x ^ k).
Definition even_function (f : R -> R) : Prop := forall x, f (- x) = f x.
(** [F] is an antiderivative of [f] on [a, b], so that F(b) - F(a) is the integral *)
Definition primitive (F f : R -> R) (a b : R) : Prop := forall x, a <= x <= b -> derivable_pt_lim F x (f x).
(** The sum over the nodes [x] with the weights [w] is the integral over [a, b] of every function of the class [C] *)
Definition exact (n : nat) (x w : nat -> R) (a b : R) (C : (R -> R) -> Prop) : Prop :=
  forall f F, C f -> primitive F f a b -> total n (fun i => w i * f (x i)) = F b - F a.
(** The nodes increase inside of the interval, and the weights are positive *)
Definition sound_nodes (n : nat) (x w : nat -> R) (a b : R) : Prop :=
  (forall i, (i < n)%nat -> a < x i < b /\ 0 < w i) /\ (forall i j, (i < j)%nat -> (j < n)%nat -> x i < x j).

(** One step of Chebyshev's iteration of third order for a root of [f], whose first two derivatives at [y] are [d1] and [d2] *)
Definition chebyshev_step (v d1 d2 y : R) : R := y - v / d1 - (v / d1) * (v / d1) * d2 / (2 * d1).
(** The [n] roots of the Legendre polynomial of degree [n], the largest first *)
Definition legendre_roots (n : nat) (r : nat -> R) : Prop :=
  (forall i, (i < n)%nat -> legendre n (r i) = 0) /\ (forall i j, (i < j)%nat -> (j < n)%nat -> r j < r i).
