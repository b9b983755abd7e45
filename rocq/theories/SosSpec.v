(** What the successive orders of scattering add up: the light of an atmosphere cut in thin layers, in each of which the source of light is taken to be
    constant, at the mean of its values at the two ends *)
From Coq Require Import Reals Bool Arith.
From Verif Require Import DeltaMSpec AddingModel.
Open Scope R_scope.

(** The atmosphere and what falls on it: per layer the albedo, the thickness, the beam at its top (and at the surface), the slant of the beam, the phase
    function from the beam (into the upward and the downward directions) and between the directions of the quadrature ([Ppm]: from downward to upward);
    the flux of the beam, the cosines and weights, whether the azimuthal component is the zeroth, the reflection of the surface if there is one, the
    light that enters at the top and that leaves the surface without having fallen on it *)
Record medium := { s_omega : vec; s_ltau : vec; s_btran : vec; s_as0 : vec; s_P0p : nat -> vec; s_P0m : nat -> vec;
  s_Ppp : nat -> mat; s_Pmp : nat -> mat; s_Pmm : nat -> mat; s_Ppm : nat -> mat;
  s_F0 : R; s_qx : vec; s_qw : vec; s_zeroth : bool; s_Rs : option mat; s_top : vec; s_bot : vec }.
(** Light at the interfaces, by interface and direction *)
Record field := { up : nat -> vec; down : nat -> vec }.
Definition nothing : field := {| up := fun _ _ => 0; down := fun _ _ => 0 |}.
Definition plus (x y : field) : field := {| up := fun j q => up x j q + up y j q; down := fun j q => down x j q + down y j q |}.
(** A thin layer: the layer of the atmosphere that it is part of, its thickness, the beam at its top; the beam at the top of the layer [N] is that at the surface *)
Record cut := { c_layer : nat -> nat; c_tau : nat -> R; c_sun : nat -> R }.

Section Light.
Variables (md : medium) (n : nat) (g : cut) (N : nat).
Definition fraction : R := if s_zeroth md then 1 / 2 else 1 / 4.
(** What is scattered at the interface [j] in the layer [k] out of the light [x] and of the beam, weakened by [s] *)
Definition source_up (s : R) (x : field) (k j q : nat) : R :=
  s_omega md k * (s * (s_F0 md / (4 * PI)) * c_sun g j * s_P0p md k q + fraction * total n (fun i => s_qw md i * (s_Ppp md k q i * up x j i + s_Ppm md k q i * down x j i))).
Definition source_down (s : R) (x : field) (k j q : nat) : R :=
  s_omega md k * (s * (s_F0 md / (4 * PI)) * c_sun g j * s_P0m md k q + fraction * total n (fun i => s_qw md i * (s_Pmp md k q i * up x j i + s_Pmm md k q i * down x j i))).
Definition clear (j q : nat) : R := exp (- c_tau g j / s_qx md q).
(** [y] is the light that [x], and [s] times the beam, bring forth when [top] enters at the top and [bottom] leaves the surface. *)
Definition lit (s : R) (x : field) (top bottom : vec) (y : field) : Prop :=
  (forall q, (q < n)%nat -> down y 0 q = top q /\ up y N q = bottom q) /\
  forall j q, (j < N)%nat -> (q < n)%nat ->
    up y j q = clear j q * up y (S j) q + (1 - clear j q) * ((source_up s x (c_layer g j) j q + source_up s x (c_layer g j) (S j) q) / 2) /\
    down y (S j) q = clear j q * down y j q + (1 - clear j q) * ((source_down s x (c_layer g j) j q + source_down s x (c_layer g j) (S j) q) / 2).
(** What the surface sends up when [x] falls on it *)
Definition mirrored (x : field) (q : nat) : R := match s_Rs md with None => 0 | Some r => total n (fun i => r q i * down x N i) end.
(** The whole light: it brings forth itself. *)
Definition whole (y : field) : Prop := lit 1 y (s_top md) (fun q => s_bot md q + mirrored y q) y.
(** Of all the light that falls on a thin layer or on the surface no more than the part [rho] goes on. *)
Definition fades (rho : R) : Prop :=
  (forall j q, (j < N)%nat -> (q < n)%nat ->
    fraction * Rabs (s_omega md (c_layer g j)) * total n (fun i => Rabs (s_qw md i) * (Rabs (s_Ppp md (c_layer g j) q i) + Rabs (s_Ppm md (c_layer g j) q i))) <= rho /\
    fraction * Rabs (s_omega md (c_layer g j)) * total n (fun i => Rabs (s_qw md i) * (Rabs (s_Pmp md (c_layer g j) q i) + Rabs (s_Pmm md (c_layer g j) q i))) <= rho) /\
  (forall r q, s_Rs md = Some r -> (q < n)%nat -> total n (fun i => Rabs (r q i)) <= rho).
Definition within (B : R) (x y : field) : Prop :=
  forall j q, (j <= N)%nat -> (q < n)%nat -> Rabs (up x j q - up y j q) <= B /\ Rabs (down x j q - down y j q) <= B.
End Light.
(** Without polarisation the phase function is the same for both hemispheres. *)
Definition scalar (n m : nat) (md : medium) : Prop :=
  forall k q i, (k < m)%nat -> (q < n)%nat -> (i < n)%nat -> s_Pmm md k q i = s_Ppp md k q i /\ s_Ppm md k q i = s_Pmp md k q i.
(** The thin layers: every layer of the atmosphere is cut in parts of equal thickness, as many as are needed for the thickness not to be above
    [max_tau] and at most one more, and in each of them the beam enters as attenuated on the way through the layer. *)
Definition cuts (max_tau : R) (md : medium) (m : nat) (g : cut) (N : nat) : Prop :=
  exists at_ : nat -> nat, at_ O = O /\ at_ m = N /\ c_sun g N = s_btran md m /\
    forall k, (k < m)%nat -> exists c, (0 < c)%nat /\ at_ (S k) = (at_ k + c)%nat /\ s_ltau md k <= max_tau * INR c /\ ((1 < c)%nat -> max_tau * INR (c - 1) <= s_ltau md k) /\
      forall i, (i < c)%nat -> c_layer g (at_ k + i)%nat = k /\ c_tau g (at_ k + i)%nat = s_ltau md k / INR c /\
        c_sun g (at_ k + i)%nat = s_btran md k * exp (- s_as0 md k * (INR i * (s_ltau md k / INR c))).
(** The orders of scattering: light scattered once, then what the light of each order brings forth.  [top] enters at every order. *)
Definition successive (md : medium) (n : nat) (g : cut) (N : nat) (x : nat -> field) : Prop :=
  lit md n g N 1 nothing (s_top md) (s_bot md) (x O) /\ forall k, lit md n g N 0 (x k) (s_top md) (mirrored md n N (x k)) (x (S k)).
Fixpoint summed_up (x : nat -> field) (K : nat) : field := match K with O => nothing | S K => plus (summed_up x K) (x K) end.
(** The first Stokes components of an order are below the tolerance where the light leaves the atmosphere. *)
Definition spent (tol : R) (m_quad n_stokes N : nat) (x : field) : Prop :=
  forall i, (i <= m_quad)%nat -> up x 0 (i * n_stokes)%nat < tol /\ down x N (i * n_stokes)%nat < tol.
