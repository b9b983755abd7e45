(** What the boundary input is. *)
From Coq Require Import Reals Bool Arith.
From Verif Require Import BoundModel.
Open Scope R_scope.

Fixpoint total (n : nat) (f : nat -> R) : R := match n with O => 0 | S m => total m f + f m end.
(** Reflection of the beam into Stokes parameter [k] of angle [s], and the albedo of the surface seen from angle [s] *)
Definition reflected (c : setup) (x : fields) (s k : nat) : R :=
  if Nat.ltb s (n_quad_x c) then bRq0 x (s * nstokes c + k)%nat else bRu0 x ((s - n_quad_x c) * nstokes c + k)%nat.
Definition row (c : setup) (x : fields) (s : nat) : vec :=
  if Nat.ltb s (n_quad_x c) then bRqq x (s * nstokes c)%nat else bRuq x ((s - n_quad_x c) * nstokes c)%nat.
Definition albedo (c : setup) (x : fields) (s : nat) : R := total (n_quad_x c) (fun j => row c x s (j * nstokes c)%nat).
(** Isotropic illumination from below, the reflected beam, and emission with the emissivity one minus the albedo *)
Definition leaving (c : setup) (four : nat) (k : beam) (x : fields) (s q : nat) : R :=
  (if Nat.eqb four 0 && Nat.eqb q 0 then bF_bot x else 0) +
  (if solar c && kernels c && (Nat.eqb four 0 || needs_fourier c) then bqf k * bmu0 k * bF0 k / PI * bbtran x * reflected c x s q else 0) +
  (if thermal c && kernels c && Nat.eqb four 0 && Nat.eqb q 0 then bsurf x * (1 - albedo c x s) else 0).
Definition entering (four : nat) (x : fields) (q : nat) : R := if Nat.eqb four 0 && Nat.eqb q 0 then bF_top x else 0.

(** [x_l] is the derivative of the family [x] at [t]; [var]: the surface varies. *)
Definition fields_derive (var : bool) (x : R -> fields) (t : R) (x_l : fields) : Prop :=
  let on v := if var then v else 0 in
  derivable_pt_lim (fun u => bF_top (x u)) t (bF_top x_l) /\ derivable_pt_lim (fun u => bF_bot (x u)) t (bF_bot x_l) /\
  derivable_pt_lim (fun u => bbtran (x u)) t (bbtran x_l) /\ derivable_pt_lim (fun u => bsurf (x u)) t (bsurf x_l) /\
  (forall i, derivable_pt_lim (fun u => bRq0 (x u) i) t (on (bRq0 x_l i))) /\ (forall i, derivable_pt_lim (fun u => bRu0 (x u) i) t (on (bRu0 x_l i))) /\
  (forall i j, derivable_pt_lim (fun u => bRqq (x u) i j) t (on (bRqq x_l i j))) /\ (forall i j, derivable_pt_lim (fun u => bRuq (x u) i j) t (on (bRuq x_l i j))).

(** The albedo is the same seen from all quadrature angles, and from all additional ones. *)
Definition same_albedo (c : setup) (x : fields) : Prop :=
  let n := (nquad c + numus c)%nat in
  forall s s', (s < n)%nat -> (s' < n)%nat -> Nat.ltb s (n_quad_x c) = Nat.ltb s' (n_quad_x c) -> albedo c x s = albedo c x s'.
