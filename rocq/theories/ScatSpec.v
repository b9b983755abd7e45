(** Scattering by a medium whose phase function is an expansion in Legendre polynomials.  No reference to how the code computes
    anything. *)
From Coq Require Import Reals Arith.
From Verif Require Import DeltaMSpec.
Open Scope R_scope.

(** The Legendre polynomials, by Bonnet's recurrence (l + 1) P_{l+1} = (2 l + 1) x P_l - l P_{l-1} *)
Fixpoint legendre (l : nat) (x : R) : R :=
  match l with
  | O => 1
  | S k => match k with O => x | S j => ((2 * INR k + 1) * x * legendre k x - INR k * legendre j x) / (INR k + 1) end
  end.
(** The phase function with the coefficients [chi], at the cosine [x] of the angle of scattering *)
Definition phase (n : nat) (chi : nat -> R) (x : R) : R := total n (fun l => chi l * legendre l x).

(** The unit vector of the direction with the zenith cosine [mu] (negative downwards) and the azimuth [phi] in radians *)
Definition direction (mu phi : R) : R * R * R := (sqrt (1 - mu * mu) * cos phi, sqrt (1 - mu * mu) * sin phi, mu).
Definition dot (u v : R * R * R) : R :=
  match u, v with (a, b, c), (a', b', c') => a * a' + b * b' + c * c' end.
Definition radians (x : R) : R := x * (PI / 180).

(** A quadrature over the upper hemisphere that integrates the even Legendre polynomials of a degree below [n_coef] exactly: P_0 to 1,
    the others to 0 *)
Definition integrates (n n_coef : nat) (mu w : nat -> R) : Prop :=
  forall l, (l < n_coef)%nat -> Nat.even l = true -> total n (fun j => w j * legendre l (mu j)) = if Nat.eqb l 0 then 1 else 0.
