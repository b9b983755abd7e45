(** What delta-M scaling is: a fraction f of the scattering is a forward peak that does not
    scatter.  The phase function is f times the peak, whose expansion coefficients are 2j+1, plus
    1-f times the scaled one; the peak's share of the scattering optical depth is removed. *)
From Coq Require Import Reals Bool Arith.
From Verif Require Import DeltaMModel.
Open Scope R_scope.

(** Rows of the coefficient array in use: one for scalar, six for vector calculations. *)
Definition rows (c : dcfg) : nat := if c_allsix c then 6 else 1.
(** Rows 0 to 3 of the expansion of the peak are 2j+1, rows 4 and 5 are 0. *)
Definition peak (r j : nat) : R := if (r <? 4)%nat then 2 * INR j + 1 else 0.
(** The scaled phase function and the peak make up the phase function. *)
Definition recombines (c : dcfg) (f : R) (x y : props) : Prop :=
  forall r j, (r < rows c)%nat -> (j < c_ncoef2 c)%nat -> p_coef x r j = f * peak r j + (1 - f) * p_coef y r j.
(** Scattering and absorption optical depth *)
Definition scattering (x : props) : R := p_ltau x * p_omega x.
Definition absorption (x : props) : R := p_ltau x * (1 - p_omega x).

(** The properties of a layer change along a path [x] with rates [y]: every number the scaling
    reads has that derivative at [t0]. *)
Definition coef_used (c : dcfg) (r j : nat) : Prop :=
  (r < rows c /\ j < c_ncoef2 c \/ r = 0 /\ j = c_ncoef2 c)%nat.
Definition moves (c : dcfg) (x : R -> props) (t0 : R) (y : props) : Prop :=
  derivable_pt_lim (fun t => p_g (x t)) t0 (p_g y) /\
  derivable_pt_lim (fun t => p_omega (x t)) t0 (p_omega y) /\
  derivable_pt_lim (fun t => p_ltau (x t)) t0 (p_ltau y) /\
  (forall r j, coef_used c r j -> derivable_pt_lim (fun t => p_coef (x t) r j) t0 (p_coef y r j)).
(** The scaled properties have these derivatives. *)
Definition moves_scaled (c : dcfg) (x : R -> props) (t0 : R) (y : props) : Prop :=
  derivable_pt_lim (fun t => p_omega (x t)) t0 (p_omega y) /\
  derivable_pt_lim (fun t => p_ltau (x t)) t0 (p_ltau y) /\
  (forall r j, (r < rows c)%nat -> (j < c_ncoef2 c)%nat ->
     derivable_pt_lim (fun t => p_coef (x t) r j) t0 (p_coef y r j)).

Fixpoint total (n : nat) (g : nat -> R) : R := match n with O => 0 | S m => total m g + g m end.
(** Pairing of a perturbation with an adjoint: albedo, depth and the first n coefficients. *)
Definition pairing (c : dcfg) (n : nat) (x y : props) : R :=
  p_omega x * p_omega y + p_ltau x * p_ltau y + total n (fun j => total (rows c) (fun r => p_coef x r j * p_coef y r j)).
Definition gain (after before : props) : props :=
  {| p_g := p_g after - p_g before; p_omega := p_omega after - p_omega before; p_ltau := p_ltau after - p_ltau before;
     p_coef := fun r j => p_coef after r j - p_coef before r j |}.

(** The truncated fraction: the square of the asymmetry parameter for the solver that uses it;
    otherwise nothing when the layer's expansion ends before the solver's, and else the fraction
    whose peak accounts for the first coefficient left out. *)
Definition truncated (c : dcfg) (u : unscaled) (layer : nat) (f : R) : Prop :=
  if c_use_g c then f = p_g (u_val u layer) * p_g (u_val u layer)
  else if (c_ncoef_layer c layer <=? c_ncoef2 c)%nat then f = 0
  else f * peak 0 (c_ncoef2 c) = p_coef (u_val u layer) 0 (c_ncoef2 c).
