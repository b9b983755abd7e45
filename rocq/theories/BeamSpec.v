(** Beer's law and the geometry of a straight ray through spherical shells. *)
From Coq Require Import Reals Bool Arith.
From Verif Require Import DeltaMSpec BeamModel.
Open Scope R_scope.

(** Slant optical depth above level m: depths of the layers above weighted by their slant factors. *)
Definition slant (q : geo) (ltau : nat -> R) (m : nat) : R :=
  match m with
  | O => 0
  | S k => if q_psa q then total m (fun j => ltau j * q_chap q k j) else total m ltau / q_mu0 q
  end.

(** A ray that meets the sphere of radius rho with zenith angle arccos mu reaches radius r at
    distance s from there. *)
Definition on_ray (rho mu r s : R) : Prop := 0 <= s /\ r * r = rho * rho + 2 * rho * mu * s + s * s.

(** Pairing of perturbations with adjoints: levels 1 to n and layers 0 to n - 1. *)
Definition beam_pairing (n j : nat) (b : beam) (s : beam_a) : R :=
  total n (fun k => btau_l b (S k) j * btau_a s (S k) + btran_l b (S k) j * btran_a s (S k) +
                    as_0_l b k j * as_0_a s k + atran_l b k j * atran_a s k).
