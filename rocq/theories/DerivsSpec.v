(** What the derivative flags mean, in terms of the inputs only. *)
From Coq Require Import ZArith List Bool Lia.
From Verif Require Import Base OptionsModel Dbl HandleModel DerivsModel.
Import ListNotations.
Open Scope Z_scope.

(** A derivative input counts when it compares different from zero (NaN does). *)
Definition moves (x : dbl) : Prop := deq x d_zero = false.

Section Inputs.
Variable d : lin.
(** Derivative [j] acts on the optical properties of layer [i]. *)
Definition moves_layer (i j : nat) : Prop :=
  moves (ltau_l d i j) \/ moves (omega_l d i j)
  \/ exists k l, (k < l_elem d)%nat /\ (l < l_ncoef d i)%nat /\ moves (coef_l d i j k l).
(** Derivative [j] acts on the reflectance of the surface. *)
Definition moves_surface (j : nat) : Prop :=
  exists k t, nth_error (l_kernels d) k = Some t /\
    (moves (amp_l d k j) \/ exists l, (l < Z.to_nat (kernel_n_params t))%nat /\ moves (par_l d k j l)).
(** Some kernel of the surface has more than the azimuthal mean. *)
Definition directional : Prop := exists t, In t (l_kernels d) /\ kernel_needs_fourier t = true.

(** The Fourier mode being solved: [first] for the azimuthal mean, where every surface
    counts; the other modes only see directional surfaces. *)
Definition acts (first : bool) (i j : nat) : Prop :=
  (i < l_layers d)%nat /\ moves_layer i j
  \/ i = l_layers d /\ (first = true \/ directional) /\ moves_surface j.
Definition emission (i j : nat) : Prop :=
  (i < l_layers d)%nat /\ (moves (levels_b_l d i j) \/ moves (levels_b_l d (i + 1) j))
  \/ i = l_layers d /\ moves (surface_b_l d j).
(** The source of layer [i]: the attenuated beam feels every layer down to [i], thermal
    emission only the layer itself and the Planck functions of its boundaries. *)
Definition acts_source (first : bool) (i j : nat) : Prop :=
  l_solar d = true /\ (exists k, (k <= i)%nat /\ acts first k j)
  \/ l_thermal d = true /\ (acts first i j \/ emission i j).
End Inputs.

(** A flag: exactly 1 or 0, as a proposition is or is not so. *)
Definition flags (v : Z) (P : Prop) : Prop := (v = 1 /\ P) \/ (v = 0 /\ ~ P).
(** The two halves of an adding code: bits 3, 2 the partner above (operators, sources),
    bits 1, 0 the partner below. *)
Definition codes (v : Z) (TL TS BL BS : Prop) : Prop :=
  0 <= v < 16 /\ (Z.testbit v 3 = true <-> TL) /\ (Z.testbit v 2 = true <-> TS)
  /\ (Z.testbit v 1 = true <-> BL) /\ (Z.testbit v 0 = true <-> BS).
