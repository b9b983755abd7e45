(** What the solver by two orders of scattering reports: light scattered exactly twice *)
From Coq Require Import Reals Bool Arith.
From Verif Require Import DeltaMSpec AddingModel.
Open Scope R_scope.

(** The atmosphere and the beam: per layer the albedo, the thickness, the slant of the beam, its transmittance along the slant, the phase function from
    the beam (into the upward and the downward directions of the quadrature) and from the directions of the quadrature to those of the output
    ([Ppm]: from downward to upward); the flux of the beam and its cosine, cosines and weights of the quadrature, cosines of the output directions apart from
    the quadrature, whether the azimuthal component is the zeroth, and the reflection of the surface, if there is one, of the beam and of the light *)
Record sky := { a_omega : vec; a_ltau : vec; a_as0 : vec; a_atran : vec; a_P0p : nat -> vec; a_P0m : nat -> vec; a_Ppp : nat -> mat; a_Pmp : nat -> mat; a_Ppm : nat -> mat;
  a_F0 : R; a_mu0 : R; a_qx : vec; a_qw : vec; a_umu : vec; a_zeroth : bool; a_Rs : option (vec * mat) }.

Section Twice.
Variables (sk : sky) (n n_out : nat) (cosine : vec) (m : nat).       (* cosine: of the output directions *)
(** The beam at the top of a layer, and in the layer at the depth [t] *)
Fixpoint arriving (j : nat) : R := match j with O => a_F0 sk | S j => arriving j * exp (- a_as0 sk j * a_ltau sk j) end.
Definition sun (j : nat) (t : R) : R := arriving j * exp (- a_as0 sk j * t).
Definition share : R := if a_zeroth sk then 1 / 2 else 1 / 4.
Definition inside (j : nat) (t : R) : Prop := (j < m)%nat /\ 0 <= t <= a_ltau sk j.
(** [u1] and [d1]: light scattered once, upward and downward, by layer, depth in the layer and direction; [u2]: upward light scattered twice.  The equation
    of transfer in every layer, the same light on both sides of every interface, nothing enters at the top.  The layer [m] stands for the surface. *)
Definition scattered_twice (u1 d1 u2 : nat -> R -> vec) : Prop :=
  (forall j t q, inside j t -> (q < n)%nat ->
    derivable_pt_lim (fun s => u1 j s q) t ((u1 j t q - a_omega sk j * a_P0p sk j q * (sun j t / (4 * PI))) / a_qx sk q) /\
    derivable_pt_lim (fun s => d1 j s q) t ((a_omega sk j * a_P0m sk j q * (sun j t / (4 * PI)) - d1 j t q) / a_qx sk q)) /\
  (forall j t k, inside j t -> (k < n_out)%nat ->
    derivable_pt_lim (fun s => u2 j s k) t
      ((u2 j t k - share * a_omega sk j * total n (fun q => a_qw sk q * (a_Ppp sk j k q * u1 j t q + a_Ppm sk j k q * d1 j t q))) / cosine k)) /\
  (forall j q, (j < m)%nat -> (q < n)%nat -> u1 j (a_ltau sk j) q = u1 (S j) 0 q /\ d1 j (a_ltau sk j) q = d1 (S j) 0 q) /\
  (forall j k, (j < m)%nat -> (k < n_out)%nat -> u2 j (a_ltau sk j) k = u2 (S j) 0 k) /\
  (forall q, (q < n)%nat -> d1 0%nat 0 q = 0 /\ u1 m 0 q = match a_Rs sk with None => 0 | Some (r0, _) => a_mu0 sk / PI * arriving m * r0 q end) /\
  (forall k, (k < n_out)%nat -> u2 m 0 k = match a_Rs sk with None => 0 | Some (_, r) => total n (fun q => r k q * d1 m 0 q) end).
End Twice.
