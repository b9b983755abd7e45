(** Fluxes and mean radiances: radiance_to_mean and radiance_to_flux, src/xrtm_radiance.c:574-606, and the part of get_solution_internal,
    src/xrtm_model.c:6266-6302, that calls them for the component of order 0.

    The arithmetic is over the reals.  [None] is a number that nothing has written.  The radiances [i_p] and [i_m] of the output levels are
    those of get_fourier. *)
From Coq Require Import Reals Bool Arith.
From Verif Require Import DerivsModel.
Open Scope R_scope.

Definition array := nat -> R.
(** src/xrtm_radiance.c:574-586; F_0, mu_0 and btran are passed and not used *)
Definition radiance_to_mean (n_quad : nat) (qx_v qw_v : array) (I : array) : R := loop n_quad (fun i a => a + qw_v i * I i) 0 / 2.
(** src/xrtm_radiance.c:593-605 *)
Definition radiance_to_flux (n_quad : nat) (qx_v qw_v : array) (I : array) : R := loop n_quad (fun i a => a + qx_v i * qw_v i * I i) 0 * 2 * PI.

(** What the handle holds.  xrtm_set_F_0 and xrtm_set_theta_0 refuse handles without solar sources (src/xrtm_interface.c:3509-3512), for which
    update_beam_params does not write btran either (src/xrtm_model.c:415). *)
Record handle := { n_quad : nat; n_stokes : nat; n_layers : nat; n_ulevels : nat; upwelling : bool; downwelling : bool;
  h_qx : array; h_qw : array; h_F_0 : option R; h_mu_0 : option R; h_btran : nat -> option R }.
(** qx_v and qw_v, src/xrtm_interface.c:1142-1154: abscissas and weights are repeated for the Stokes components *)
Definition qx_v (h : handle) : array := fun i => h_qx h (i / n_stokes h)%nat.
Definition qw_v (h : handle) : array := fun i => h_qw h (i / n_stokes h)%nat.
Definition n_quad_v (h : handle) : nat := (n_quad h * n_stokes h)%nat.

(** The arrays of the caller; [..][j] is output level j, the derivatives are [..][j][l] *)
Record output := { mean_p : nat -> option R; mean_m : nat -> option R; flux_p : nat -> option R; flux_m : nat -> option R; flux_div : nat -> option R;
  mean_p_l : nat -> nat -> option R; mean_m_l : nat -> nat -> option R; flux_p_l : nat -> nat -> option R; flux_m_l : nat -> nat -> option R;
  flux_div_l : nat -> nat -> option R }.
Definition put (a : nat -> option R) (j : nat) (v : option R) : nat -> option R := fun k => if (k =? j)%nat then v else a k.
Definition with_mean (o : output) (p m : nat -> option R) : output := {| mean_p := p; mean_m := m; flux_p := flux_p o; flux_m := flux_m o; flux_div := flux_div o;
  mean_p_l := mean_p_l o; mean_m_l := mean_m_l o; flux_p_l := flux_p_l o; flux_m_l := flux_m_l o; flux_div_l := flux_div_l o |}.
Definition with_flux (o : output) (p m : nat -> option R) : output := {| mean_p := mean_p o; mean_m := mean_m o; flux_p := p; flux_m := m; flux_div := flux_div o;
  mean_p_l := mean_p_l o; mean_m_l := mean_m_l o; flux_p_l := flux_p_l o; flux_m_l := flux_m_l o; flux_div_l := flux_div_l o |}.

(** jj, 6268, 6283, 6298: the level whose transmittance is used *)
Definition beam_level (h : handle) (j : nat) : nat := if (j =? 0)%nat then 0%nat else n_layers h.
Definition lift2 (f : R -> R -> R) (a b : option R) : option R := match a, b with Some x, Some y => Some (f x y) | _, _ => None end.
(** F_0 * btran[jj] / (4 PI), 6273, and F_0 * mu_0 * btran[jj], 6288 *)
Definition beam_mean (h : handle) (j : nat) : option R := lift2 (fun f b => f * b / (4 * PI)) (h_F_0 h) (h_btran h (beam_level h j)).
Definition beam_flux (h : handle) (j : nat) : option R := lift2 Rmult (lift2 Rmult (h_F_0 h) (h_mu_0 h)) (h_btran h (beam_level h j)).
(** 6266-6275 *)
Definition means (h : handle) (i_p i_m : nat -> array) (o : output) : output := loop (n_ulevels h) (fun j o =>
  with_mean o
    (if upwelling h then put (mean_p o) j (Some (radiance_to_mean (n_quad_v h) (qx_v h) (qw_v h) (i_p j))) else mean_p o)
    (if downwelling h then put (mean_m o) j (lift2 Rplus (Some (radiance_to_mean (n_quad_v h) (qx_v h) (qw_v h) (i_m j))) (beam_mean h j)) else mean_m o)) o.
(** 6281-6290 *)
Definition fluxes (h : handle) (i_p i_m : nat -> array) (o : output) : output := loop (n_ulevels h) (fun j o =>
  with_flux o
    (if upwelling h then put (flux_p o) j (Some (radiance_to_flux (n_quad_v h) (qx_v h) (qw_v h) (i_p j))) else flux_p o)
    (if downwelling h then put (flux_m o) j (lift2 Rplus (Some (radiance_to_flux (n_quad_v h) (qx_v h) (qw_v h) (i_m j))) (beam_flux h j)) else flux_m o)) o.
(** 6296-6301: the body of the loop over the levels is empty *)
Definition divergence (h : handle) (o : output) : output := loop (n_ulevels h) (fun _ o => o) o.
(** The outputs asked for with [want_mean], [want_flux] and [want_div]; the derivatives are not mentioned anywhere. *)
Definition solution (h : handle) (want_mean want_flux want_div : bool) (i_p i_m : nat -> array) (o : output) : output :=
  let o := if want_mean then means h i_p i_m o else o in
  let o := if want_flux then fluxes h i_p i_m o else o in
  if want_div then divergence h o else o.
