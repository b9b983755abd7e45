(** What the derivatives of the radiances by successive orders are derivatives of *)
From Coq Require Import Reals Bool Arith ZArith.
From Verif Require Import DeltaMSpec AddingModel AddingSpec SosSpec.
Open Scope R_scope.

(** Derivatives of what the solver is given, with respect to one parameter: the names follow those of [medium]. *)
Record medium_l := { l_omega : vec; l_ltau : vec; l_btran : vec; l_as0 : vec; l_P0p : nat -> vec; l_P0m : nat -> vec;
  l_Ppp : nat -> mat; l_Pmp : nat -> mat; l_Pmm : nat -> mat; l_Ppm : nat -> mat; l_Rs : mat; l_top : vec; l_bot : vec }.
(** Layers (and, as number [m], the surface) that depend on the parameter; elsewhere the derivatives of phase functions and surface are not looked at. *)
Definition only (b : bool) (x : R) : R := if b then x else 0.
(** The atmospheres [X s] have the derivatives [dl] at [p]; beam, quadrature and kind of component are fixed. *)
Definition varies (n m : nat) (mk : nat -> bool) (X : R -> medium) (p : R) (dl : medium_l) : Prop :=
  (forall s, s_F0 (X s) = s_F0 (X p) /\ s_qx (X s) = s_qx (X p) /\ s_qw (X s) = s_qw (X p) /\ s_zeroth (X s) = s_zeroth (X p)) /\
  (forall k, (k < m)%nat -> derivable_pt_lim (fun s => s_omega (X s) k) p (l_omega dl k) /\ derivable_pt_lim (fun s => s_ltau (X s) k) p (l_ltau dl k) /\
    derivable_pt_lim (fun s => s_as0 (X s) k) p (l_as0 dl k)) /\
  (forall k, (k <= m)%nat -> derivable_pt_lim (fun s => s_btran (X s) k) p (l_btran dl k)) /\
  (forall k q, (k < m)%nat -> (q < n)%nat -> derivable_pt_lim (fun s => s_P0p (X s) k q) p (only (mk k) (l_P0p dl k q)) /\ derivable_pt_lim (fun s => s_P0m (X s) k q) p (only (mk k) (l_P0m dl k q))) /\
  (forall k q i, (k < m)%nat -> (q < n)%nat -> (i < n)%nat ->
    derivable_pt_lim (fun s => s_Ppp (X s) k q i) p (only (mk k) (l_Ppp dl k q i)) /\ derivable_pt_lim (fun s => s_Pmp (X s) k q i) p (only (mk k) (l_Pmp dl k q i)) /\
    derivable_pt_lim (fun s => s_Pmm (X s) k q i) p (only (mk k) (l_Pmm dl k q i)) /\ derivable_pt_lim (fun s => s_Ppm (X s) k q i) p (only (mk k) (l_Ppm dl k q i))) /\
  ((forall s, s_Rs (X s) = None) \/ exists r, (forall s, s_Rs (X s) = Some (r s)) /\ forall q i, (q < n)%nat -> (i < n)%nat -> derivable_pt_lim (fun s => r s q i) p (only (mk m) (l_Rs dl q i))) /\
  (forall q, (q < n)%nat -> derivable_pt_lim (fun s => s_top (X s) q) p (l_top dl q) /\ derivable_pt_lim (fun s => s_bot (X s) q) p (l_bot dl q)).
(** No layer is at the point where the number of its parts jumps. *)
Definition between (max_tau : R) (m : nat) (md : medium) : Prop := forall k z, (k < m)%nat -> s_ltau md k <> IZR z * max_tau \/ (z < 1)%Z.
(** No order after the first has a component equal to the tolerance where the light leaves. *)
Definition decided (tol max_tau : R) (m m_quad n_stokes max_os : nat) (md : medium) : Prop :=
  forall g N x, cuts max_tau md m g N -> successive md (S m_quad * n_stokes) g N x -> forall k i, (0 < k < max_os)%nat -> (i <= m_quad)%nat ->
    up (x k) 0 (i * n_stokes)%nat <> tol /\ down (x k) N (i * n_stokes)%nat <> tol.
