(** What fluxes and mean radiances are, and what becomes of the light between two levels.  No reference to how the code computes anything. *)
From Coq Require Import Reals Bool Arith.
From Verif Require Import DeltaMSpec AddingModel AddingSpec EigModel EigSpec.
Open Scope R_scope.

Section Quantities.
Variable n : nat.
Variables (mu w : vec).            (* the cosine of each stream and its quadrature weight *)
(** The flux through a horizontal plane of the light [I] of a hemisphere that does not depend on the azimuth: 2 pi times the integral
    of mu I over mu *)
Definition flux_of (I : vec) : R := 2 * PI * total n (fun i => w i * (mu i * I i)).
(** What a hemisphere contributes to the radiance averaged over all directions *)
Definition mean_of (I : vec) : R := 2 * PI * total n (fun i => w i * I i) / (4 * PI).
End Quantities.

(** The light of the beam at the depth [t] below the top of a layer: the flux through a plane perpendicular to it *)
Definition beam_at (solar : bool) (x : slab) (t : R) : R := if solar then flux0 x * (btran x * exp (- as_0 x * t)) else 0.
(** The net flux upwards, with the beam at the cosine [mu_0] *)
Definition net (n : nat) (solar : bool) (mu_0 : R) (x : slab) (Ip Im : beam) (t : R) : R :=
  flux_of n (qx x) (qw x) (fun i => Ip i t) - (flux_of n (qx x) (qw x) (fun i => Im i t) + mu_0 * beam_at solar x t).
(** The radiance averaged over all directions: light of both hemispheres and the beam *)
Definition mean_radiance (n : nat) (solar : bool) (x : slab) (Ip Im : beam) (t : R) : R :=
  mean_of n (qw x) (fun i => Ip i t) + mean_of n (qw x) (fun i => Im i t) + beam_at solar x t / (4 * PI).
(** Emission at the depth [t] *)
Definition emission_at (thermal : bool) (x : slab) (t : R) : R := if thermal then planck0 x + (planck1 x - planck0 x) * t / ltau x else 0.
(** What a unit of optical depth absorbs more than it emits *)
Definition absorbed (n : nat) (solar thermal : bool) (x : slab) (Ip Im : beam) (t : R) : R :=
  4 * PI * (1 - omega x) * (mean_radiance n solar x Ip Im t - emission_at thermal x t).

(** Phase functions that redistribute the light and lose none of it, and weights that average *)
Definition fair (n : nat) (solar thermal : bool) (x : slab) : Prop :=
  zeroth x = true /\ (forall i, (i < n)%nat -> qx x i <> 0) /\
  (forall j, (j < n)%nat -> total n (fun i => qw x i * (P_pp x i j + P_mp x i j)) = 2) /\
  (solar = true -> total n (fun i => qw x i * (Q_pm x i + Q_mm x i)) = 2) /\
  (thermal = true -> total n (qw x) = 1).
(** In an atmosphere of parallel planes the beam is attenuated along its path, which is 1 / mu_0 times as long as the vertical one. *)
Definition parallel (mu_0 : R) (x : slab) : Prop := mu_0 * as_0 x = 1.
(** The beam that leaves a layer enters the next one. *)
Definition beam_goes_on (m : nat) (xs : nat -> slab) : Prop :=
  forall k, (k < m)%nat -> btran (xs (S k)) = btran (xs k) * exp (- as_0 (xs k) * ltau (xs k)) /\ flux0 (xs (S k)) = flux0 (xs k).
(** [H k] is an integral of what layer [k] absorbs. *)
Definition integrals (n m : nat) (solar thermal : bool) (xs : nat -> slab) (Ip Im : nat -> beam) (H : nat -> R -> R) : Prop :=
  forall k t, (k <= m)%nat -> 0 <= t <= ltau (xs k) -> derivable_pt_lim (H k) t (absorbed n solar thermal (xs k) (Ip k) (Im k) t).
