(** What the derivatives of the two-stream solver are derivatives of: atmospheres that depend on a parameter. *)
From Coq Require Import Reals Bool Arith.
From Verif Require Import DeltaMSpec AddingModel AddingSpec TwoSpec.
Open Scope R_scope.

(** The derivatives of the inputs with respect to one parameter: first coefficient, albedo, optical thickness, attenuation of the beam and its two
    transmittances; of the surface *)
Record deck_l := { l_coef : nat -> R; l_omega : nat -> R; l_ltau : nat -> R; l_as0 : nat -> R; l_atran : nat -> R; l_btran : nat -> R; l_rqq : R; l_rq0 : R }.
(** Which layers depend on the parameter (the surface below the layers 0 to m is number m + 1), and where the beam does *)
Record varied := { v_layer : nat -> bool; v_beam : nat -> bool }.
Definition rqq (g : ground) : R := match g with Some (r, _) => r | None => 0 end.
Definition rq0 (g : ground) : R := match g with Some (_, r) => r | None => 0 end.

(** A derivative counts where it is marked. *)
Definition when (b : bool) (x : R) : R := if b then x else 0.

(** The atmospheres [D s] over the grounds [G s] have these derivatives at [p]: what is not marked does not depend on the parameter, whatever is
    stored as its derivative. *)
Definition depends (m : nat) (fl : varied) (D : R -> deck) (G : R -> ground) (p : R) (dl : deck_l) : Prop :=
  (forall s, t_four (D s) = t_four (D p) /\ t_qx (D s) = t_qx (D p) /\ t_F0 (D s) = t_F0 (D p) /\ t_mu0 (D s) = t_mu0 (D p)) /\
  (forall k, (k <= m)%nat ->
    derivable_pt_lim (fun s => t_coef (D s) k 1%nat) p (when (v_layer fl k) (l_coef dl k)) /\ derivable_pt_lim (fun s => t_omega (D s) k) p (when (v_layer fl k) (l_omega dl k)) /\
    derivable_pt_lim (fun s => t_ltau (D s) k) p (when (v_layer fl k) (l_ltau dl k)) /\ derivable_pt_lim (fun s => t_as0 (D s) k) p (when (v_beam fl k) (l_as0 dl k)) /\
    derivable_pt_lim (fun s => t_atran (D s) k) p (when (v_beam fl k) (l_atran dl k))) /\
  (forall k, (k <= S m)%nat -> derivable_pt_lim (fun s => t_btran (D s) k) p (when (v_beam fl k) (l_btran dl k))) /\
  (forall s, G s = None <-> G p = None) /\
  (G p <> None -> derivable_pt_lim (fun s => rqq (G s)) p (when (v_layer fl (S m)) (l_rqq dl)) /\ derivable_pt_lim (fun s => rq0 (G s)) p (when (v_layer fl (S m)) (l_rq0 dl))).
(** Where a layer depends on the parameter, so does the beam; the derivative of the transmittance of the last layer is stored also if it is zero. *)
Definition marks (m : nat) (fl : varied) (dl : deck_l) : Prop :=
  (forall k, (k <= m)%nat -> v_layer fl k = true -> v_beam fl k = true) /\ (v_beam fl m = false -> l_atran dl m = 0).
