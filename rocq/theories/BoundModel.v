(** The radiation entering at the top and leaving the surface: diff_bound_input_update, src/xrtm_model.c:3912-4157, and its adjoint,
    src/xrtm_model_a.c:1803-1862.

    The arithmetic is over the reals.  The reflection of the surface (get_brdf_vecs_q0, _u0, get_brdf_mats_qq, _uq) is an input of the
    model, the dependency flags are in CacheModel.v and the save tree in SaveTreeModel.v.  In the thermal part the value [b] of
    line 4134 is computed but not used when there are no additional angles; it is then never assigned, and the model does not read it. *)
From Coq Require Import Reals Bool Arith.
From Verif Require Import Base.
Open Scope R_scope.

Definition vec := nat -> R.
Definition mat := nat -> nat -> R.
(** v[i] += x *)
Definition add_at (v : vec) (i : nat) (x : R) : vec := fun j => if Nat.eqb j i then v j + x else v j.
(** for (c = 0; c < n; ++c) { body(ii); ii += s; }, and the last value of ii *)
Fixpoint strided {A} (n ii s : nat) (body : nat -> A -> A) (v : A) : A :=
  match n with O => v | S m => strided m (ii + s) s body (body ii v) end.
(** a = 0.; jj = 0; for (j = 0; j < n; ++j) { a += x[jj]; jj += s; } *)
Definition row_sum (n s : nat) (x : vec) : R := strided n 0 s (fun jj a => a + x jj) 0.

(** Numbers of quadrature angles, additional angles and Stokes parameters; the options and what the surface is *)
Record setup := { nquad : nat; numus : nat; nstokes : nat; sfi : bool; solar : bool; thermal : bool; kernels : bool; needs_fourier : bool }.
(** n_quad_x, src/xrtm_interface.c:1089-1092: the additional angles are quadrature angles of weight zero without SFI *)
Definition n_quad_x (c : setup) : nat := if sfi c then nquad c else nquad c + numus c.
(** src/xrtm_model.c:138-148 *)
Definition solar_surface (c : setup) (four : nat) : bool := kernels c && (Nat.eqb four 0 || needs_fourier c).
Definition thermal_surface (c : setup) (four : nat) : bool := kernels c && Nat.eqb four 0.

(** The quantities used; the same record holds their derivatives.  [bqf], [bmu0] and [bF0] are the same for all derivatives. *)
Record fields := { bF_top : R; bF_bot : R; bbtran : R; bRq0 : vec; bRu0 : vec; bsurf : R; bRqq : mat; bRuq : mat }.
Record beam := { bqf : R; bmu0 : R; bF0 : R }.

(** In_p and I1_m, 3971-4109 *)
Definition iso (c : setup) (four : nat) (F : R) (v : vec) : vec :=
  if Nat.eqb four 0 then strided (nquad c + numus c) 0 (nstokes c) (fun ii v => add_at v ii F) v else v.          (* 3984-4000 *)
Definition direct (c : setup) (b : R) (Rq0 Ru0 : vec) (v : vec) : vec :=
  let nx := (n_quad_x c * nstokes c)%nat in
  let v := strided nx 0 1 (fun i v => add_at v i (b * Rq0 i)) v in                                              (* 4026-4027 *)
  strided ((nquad c + numus c) * nstokes c - nx) 0 1 (fun ii v => add_at v (nx + ii)%nat (b * Ru0 ii)) v.              (* 4029-4031 *)
Definition emitted (c : setup) (B : R) (Rqq Ruq : mat) (v : vec) : vec :=
  let nx := n_quad_x c in
  let v := strided nx 0 (nstokes c) (fun ii v => add_at v ii (B * (1 - row_sum nx (nstokes c) (Rqq ii)))) v in          (* 4084-4095 *)
  strided (nquad c + numus c - nx) 0 (nstokes c)
    (fun ii v => add_at v (nx * nstokes c + ii)%nat (B * (1 - row_sum nx (nstokes c) (Ruq ii)))) v.                   (* 4097-4109 *)
Definition scale (k : beam) : R := bqf k * bmu0 k * bF0 k / PI.                                                 (* 4022 *)
Definition top_input (c : setup) (four : nat) (x : fields) : vec := iso c four (bF_top x) (fun _ => 0).
Definition bottom_input (c : setup) (four : nat) (k : beam) (x : fields) : vec :=
  let v := iso c four (bF_bot x) (fun _ => 0) in
  let v := if solar c && solar_surface c four then direct c (scale k * bbtran x) (bRq0 x) (bRu0 x) v else v in
  if thermal c && thermal_surface c four then emitted c (bsurf x) (bRqq x) (bRuq x) v else v.

(** In_p_l and I1_m_l for one derivative, 3992-3999, 4033-4053, 4111-4154; [var]: derivs.layers[n_layers] *)
Definition direct_l (c : setup) (b c_ : R) (var : bool) (Rq0 Ru0 Rq0_l Ru0_l : vec) (v : vec) : vec :=
  let nx := (n_quad_x c * nstokes c)%nat in
  let bump i y y' v := let v := add_at v i (c_ * y) in if var then add_at v i (b * y') else v in
  let v := strided nx 0 1 (fun j v => bump j (Rq0 j) (Rq0_l j) v) v in
  strided ((nquad c + numus c) * nstokes c - nx) 0 1 (fun jj v => bump (nx + jj)%nat (Ru0 jj) (Ru0_l jj) v) v.
(** The last value of [a] (4086-4091) or [b] (4099-4104): the sum over the last row *)
Definition last_sum (n nx s : nat) (m : mat) : R := row_sum nx s (m ((n - 1) * s)%nat).
Definition emitted_l (c : setup) (B B_l : R) (var : bool) (Rqq Ruq Rqq_l Ruq_l : mat) (v : vec) : vec :=
  let nx := n_quad_x c in
  let nu := (nquad c + numus c - nx)%nat in
  let e m ii := if var then row_sum nx (nstokes c) (m ii) else 0 in
  let c1 := B_l * (1 - last_sum nx nx (nstokes c) Rqq) in                                                   (* 4117 *)
  let v := strided nx 0 (nstokes c) (fun jj v => add_at v jj (c1 + B * - e Rqq_l jj)) v in
  let c2 := B_l * (1 - last_sum nu nx (nstokes c) Ruq) in                                                   (* 4134 *)
  strided nu 0 (nstokes c) (fun jj v => add_at v (nx * nstokes c + jj)%nat (c2 + B * - e Ruq_l jj)) v.
Definition top_input_l (c : setup) (four : nat) (x_l : fields) : vec := iso c four (bF_top x_l) (fun _ => 0).
Definition bottom_input_l (c : setup) (four : nat) (k : beam) (var : bool) (x x_l : fields) : vec :=
  let v := iso c four (bF_bot x_l) (fun _ => 0) in
  let v := if solar c && solar_surface c four
           then direct_l c (scale k * bbtran x) (scale k * bbtran x_l) var (bRq0 x) (bRu0 x) (bRq0 x_l) (bRu0 x_l) v else v in
  if thermal c && thermal_surface c four then emitted_l c (bsurf x) (bsurf x_l) var (bRqq x) (bRuq x) (bRqq x_l) (bRuq x_l) v else v.

(** The adjoint: what is added to btran_a, and the vectors handed to the adjoint of the surface; 1821-1848.  The thermal part
    (1853-1855) is empty. *)
Record adjoints := { abtran : R; aRq0 : vec; aRu0 : vec }.
Definition bottom_input_a (c : setup) (four : nat) (k : beam) (x : fields) (In_a : vec) (btran_a : R) : adjoints :=
  if (if Req_EM_T (bF0 k) 0 then false else true) && solar_surface c four then
    let a := scale k in
    let nx := (n_quad_x c * nstokes c)%nat in
    let r := {| abtran := btran_a; aRq0 := fun _ => 0; aRu0 := fun _ => 0 |} in
    let r := strided nx 0 1 (fun i r => {| abtran := abtran r + In_a i * a * bRq0 x i; aRq0 := add_at (aRq0 r) i (In_a i * a * bbtran x);
                                            aRu0 := aRu0 r |}) r in
    strided ((nquad c + numus c) * nstokes c - nx) 0 1
      (fun ii r => {| abtran := abtran r + In_a (nx + ii)%nat * a * bRu0 x ii; aRq0 := aRq0 r;
                      aRu0 := add_at (aRu0 r) ii (In_a (nx + ii)%nat * a * bbtran x) |}) r
  else {| abtran := btran_a; aRq0 := fun _ => 0; aRu0 := fun _ => 0 |}.
