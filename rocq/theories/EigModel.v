(** The eigenvalue solver for one layer: rtm_eig_rts of src/xrtm_eig_rts.c with what it calls (build_txr, build_gamma,
    eig_2n_gen_real, calc_global_r_and_t, build_source_vectors_solar_classic_1n, build_global_source_solar,
    build_source_vectors_thermal2, build_global_source_thermal), build_local_r_and_t that prepares its input,
    no_scatter_r_t_s that is used instead of it when nothing is scattered, and scale_add_source_vectors that is applied to
    its output.
    Over the reals: rounding is not modelled.  Scalar mode (the option VECTOR is off, n_stokes = 1: dmat_mul_D_A and
    dm_v_mul_D_A do nothing), the symmetric form off (misc_input.use_symmetric_form, off by default), the classical
    particular solution (the option PART_SOL_GREENS off, CLASSICAL_PARTICULAR_SOLUTION_USE_2D 0 as in xrtm.h), no save tree.

    External to the repository and parameters here: [solve k], dmat_getrf and dmat_getrs for matrices of order k, with the
    contract of AddingSpec; [eig], dgeev: the real parts of the eigenvalues and the columns of eigenvectors; the
    contract is in EigSpec. *)
From Coq Require Import Reals Bool Arith ZArith.
From Verif Require Import Base DeltaMSpec AddingModel RadianceModel.
Open Scope R_scope.

(** The arguments that describe the layer; for the derivatives, the entries [i] of omega_l, ltau_l, ... *)
Record slab := {
  qx : vec; qw : vec;               (* abscissas and weights, not differentiated *)
  zeroth : bool;                    (* i_four == 0 *)
  flux0 : R;                        (* F_0, not differentiated *)
  omega : R; ltau : R;
  as_0 : R; atran : R; btran : R;   (* the beam: attenuation, transmittance of the layer, transmittance of the layers above *)
  planck0 : R; planck1 : R;
  P_pp : mat; P_mp : mat;           (* phase matrices *)
  Q_mm : vec; Q_pm : vec            (* P_q0_mm, P_q0_pm: phase vectors of the beam *)
}.

(** dmat_diag_mul, dmat_mul_diag, dmat_mul_dinv, dmat_scale, dmat_sub, dvec_sub *)
Definition diag_mul (v : vec) (a : mat) : mat := fun i j => v i * a i j.
Definition mul_diag (a : mat) (v : vec) : mat := fun i j => a i j * v j.
Definition mul_dinv (a : mat) (v : vec) : mat := fun i j => a i j / v j.
Definition scaled (t : R) (a : mat) : mat := fun i j => t * a i j.
Definition less (a b : mat) : mat := fun i j => a i j - b i j.
Definition vless (u v : vec) : vec := fun i => u i - v i.

Section Ops.
Variable n : nat.
Variable solve : nat -> mat -> mat -> mat.
Variable eig : mat -> vec * mat.
Notation "a ** b" := (mmul n a b) (at level 40, left associativity).
Notation "a +++ b" := (madd a b) (at level 50, left associativity).
Notation "a --- b" := (less a b) (at level 50, left associativity).
Notation "a *v v" := (mv n a v) (at level 40, left associativity).
Notation "u +v v" := (vadd u v) (at level 50, left associativity).
Notation "u -v v" := (vless u v) (at level 50, left associativity).

(* ------------------------------------------------------------------------- *)
(** * Reflection and transmission of a thin layer *)

(** xrtm_utility.c:1020 *)
Definition inv_qx (x : slab) : vec := fun i => 1 / qx x i.
(** 981, 983 *)
Definition factor (x : slab) (a : R) : R := a * (1 + (if zeroth x then 1 else 0)) / 4.
(** build_local_r_or_t_mat, 925-1006: the branch taken, 969-1005; values 985-987 *)
Definition local_mat (x : slab) (a : R) (P : mat) : mat :=
  scaled (factor x a * omega x) (mul_diag (diag_mul (inv_qx x) P) (qw x)).
(** one derivative, 996-1002 *)
Definition local_mat_l (x dx : slab) (a : R) (P P_l : mat) : mat :=
  mul_diag (diag_mul (inv_qx x) (scaled (factor x a * omega dx) P +++ scaled (factor x a * omega x) P_l)) (qw x).
(** build_local_r_and_t, 1010-1031; dmat_sub_diag 1027 *)
Definition local_r (x : slab) : mat := local_mat x (-1) (P_mp x).
Definition local_t (x : slab) : mat := fun i j => local_mat x 1 (P_pp x) i j - (if Nat.eqb i j then inv_qx x i else 0).
Definition local_r_l (x dx : slab) : mat := local_mat_l x dx (-1) (P_mp x) (P_mp dx).
Definition local_t_l (x dx : slab) : mat := local_mat_l x dx 1 (P_pp x) (P_pp dx).

(** build_txr, 1038-1084: the branch n_stokes <= 2 *)
Definition t_plus_r (x : slab) : mat := local_t x +++ local_r x.
Definition t_minus_r (x : slab) : mat := local_t x --- local_r x.
Definition t_plus_r_l (x dx : slab) : mat := local_t_l x dx +++ local_r_l x dx.
Definition t_minus_r_l (x dx : slab) : mat := local_t_l x dx --- local_r_l x dx.
(** build_gamma, 1091-1119 *)
Definition gam (x : slab) : mat := t_minus_r x ** t_plus_r x.
Definition gam_l (x dx : slab) : mat := t_minus_r x ** t_plus_r_l x dx +++ t_minus_r_l x dx ** t_plus_r x.

(* ------------------------------------------------------------------------- *)
(** * Eigenvalues and eigenvectors: eig_2n_gen_real, xrtm_eig_util.c:963-1006 *)

(** eig_func_gen_real, 133-238, called at 329: dgeev; its failure (info != 0) ends the process and is not modelled *)
Definition evals (x : slab) : vec := fst (eig (gam x)).
Definition evecs (x : slab) : mat := snd (eig (gam x)).
(** eig_1n_to_2n_real, 577-716: the branch taken, 654-715 *)
Definition nu (x : slab) : vec := fun i => sqrt (Rabs (evals x i)).                            (* 664-665 *)
Definition w1n (x : slab) : mat := mul_dinv (t_plus_r x ** evecs x) (nu x).                    (* 667-672 *)
Definition X_p (x : slab) : mat := scaled (/ 2) (evecs x +++ w1n x).                           (* 677-678 *)
Definition X_m (x : slab) : mat := scaled (/ 2) (evecs x --- w1n x).                           (* 680-681 *)

(* ------------------------------------------------------------------------- *)
(** * Global reflection and transmission: calc_global_r_and_t, xrtm_eig_rts_x.c:14-315 *)

Definition lambda (x : slab) : vec := fun i => exp (- nu x i * ltau x).                        (* 77-78 *)
Definition ga (x : slab) : mat := mul_diag (X_p x) (lambda x).                                 (* 84 *)
Definition gb (x : slab) : mat := solve n (X_m x) (ga x).                                      (* 87-91 *)
Definition gc (x : slab) : mat := X_m x --- gb x ** ga x.                                      (* 94-95 *)
Definition gd (x : slab) : mat := solve n (gc x) (X_p x).                                      (* 97-102 *)
Definition ge (x : slab) : mat := solve n (gc x) (mul_diag (X_m x) (lambda x)).                (* 105-106 *)
Definition glob_R (x : slab) : mat := ge x ** gb x --- gd x.                                   (* 109-110 *)
Definition glob_T (x : slab) : mat := ge x --- gd x ** gb x.                                   (* 117-118 *)

(* ------------------------------------------------------------------------- *)
(** * The source of the beam *)

(** build_source_vectors_solar_classic_1n, xrtm_source.c:23-249; rtm_eig_rts passes P_x0_p, P_x0_m as P_q0_mm, P_q0_pm *)
Definition beam_f (x : slab) : mat := fun i j => gam x i j - (if Nat.eqb i j then as_0 x * as_0 x else 0).   (* 100-103 *)
Definition beam_v1 (x : slab) : vec := fun i => flux0 x / (4 * PI) * omega x / qx x i * Q_pm x i.            (* 112-118 *)
Definition beam_v2 (x : slab) : vec := fun i => flux0 x / (4 * PI) * omega x / qx x i * Q_mm x i.            (* 119 *)
Definition beam_d (x : slab) : vec := beam_v1 x +v beam_v2 x.                                                (* 124 *)
Definition beam_e (x : slab) : vec := beam_v1 x -v beam_v2 x.                                                (* 125 *)
Definition beam_p (x : slab) : vec :=                                                                        (* 127-131 *)
  csolve (solve n) (beam_f x) (vscale (- as_0 x) (beam_d x) -v t_minus_r x *v beam_e x).
Definition beam_h (x : slab) : vec := t_plus_r x *v beam_p x +v beam_e x.                                    (* 133-134 *)
Definition Fs_p (x : slab) : vec := vscale (/ 2) (vscale (1 / as_0 x) (beam_h x) +v beam_p x).               (* 136-138 *)
Definition Fs_m (x : slab) : vec := Fs_p x -v beam_p x.                                                      (* 140 *)
(** build_global_source_solar, 821-831: build_global_source_solar2, 835-975, with R_m = R_p, T_m = T_p.  atran is an
    exponential, so only the branches atran >= 0 are modelled *)
Definition S_p (x : slab) : vec :=                                                                           (* 853-860 *)
  Fs_p x -v vscale (atran x) (glob_T x *v Fs_p x) -v glob_R x *v Fs_m x.
Definition S_m (x : slab) : vec :=                                                                           (* 863-872 *)
  vscale (atran x) (Fs_m x -v glob_R x *v Fs_p x) -v glob_T x *v Fs_m x.

(* ------------------------------------------------------------------------- *)
(** * The source of thermal emission *)

(** build_thermal_source_coefficients, xrtm_source.c:404-647, with r_m = r_p, t_m = t_p (call_solver, xrtm_model.c:2036-2041) *)
Definition slope (x : slab) : R := (planck1 x - planck0 x) / ltau x.                                         (* 454 *)
Definition wide (q : vec) (t r : mat) : mat := fun i j =>                                                    (* 456-467, 520-531 *)
  if Nat.ltb i n then (if Nat.ltb j n then - t i j * q i else r i (j - n)%nat * q i)
  else (if Nat.ltb j n then - r (i - n)%nat j * - q (i - n)%nat else t (i - n)%nat (j - n)%nat * - q (i - n)%nat).
Definition ther_w (x : slab) : mat := wide (qx x) (local_t x) (local_r x).
Definition ther_a1 (x : slab) : vec := csolve (solve (n + n)%nat) (ther_w x) (fun _ => (1 - omega x) * slope x).  (* 471-477 *)
Definition signed (q : vec) (v : vec) : vec := fun j => v j * (if Nat.ltb j n then q j else - q (j - n)%nat).
Definition ther_a0 (x : slab) : vec :=                                                                       (* 486-496 *)
  csolve (solve (n + n)%nat) (ther_w x) (fun j => (1 - omega x) * planck0 x + signed (qx x) (ther_a1 x) j).
Definition upper (v : vec) : vec := v.                                                                       (* 481, 500 *)
Definition lower (v : vec) : vec := fun i => v (n + i)%nat.                                                  (* 482, 501 *)
(** build_source_vectors_thermal, 654-753: pow(0, 0) = 1, pow(0, 1) = 0 *)
Definition F0_p (x : slab) : vec := upper (ther_a0 x).
Definition F0_m (x : slab) : vec := lower (ther_a0 x).
Definition F1_p (x : slab) : vec := upper (ther_a0 x) +v vscale (ltau x) (upper (ther_a1 x)).
Definition F1_m (x : slab) : vec := lower (ther_a0 x) +v vscale (ltau x) (lower (ther_a1 x)).
(** build_global_source_thermal, 982-1041 *)
Definition Sl_p (x : slab) : vec := F0_p x -v glob_T x *v F1_p x -v glob_R x *v F0_m x.                      (* 998-1001 *)
Definition Sl_m (x : slab) : vec := F1_m x -v glob_R x *v F1_p x -v glob_T x *v F0_m x.                      (* 1003-1006 *)

(* ------------------------------------------------------------------------- *)
(** * The operators of the layer *)

(** scale_add_source_vectors, xrtm_source.c:1100-1137, with scale_source_vectors_solar, 1048-1093 *)
Definition scale_add (solar thermal : bool) (b : R) (s l : vec) : vec :=
  let f := zvec in
  let f := if solar then vscale b s else f in
  if thermal then f +v l else f.
(** rtm_eig_rts, then the copies R_m = R_p, T_m = T_p of call_solver, xrtm_model.c:2070-2072 *)
Definition eig_layer (solar thermal : bool) (x : slab) : layer :=
  {| Rm := glob_R x; Tm := glob_T x; Sm := scale_add solar thermal (btran x) (S_m x) (Sl_m x);
     Rp := glob_R x; Tp := glob_T x; Sp := scale_add solar thermal (btran x) (S_p x) (Sl_p x) |}.
(** no_scatter_r_t_s, xrtm_utility.c:1400-1458: with thermal emission the process ends with exit(1), line 1421 *)
Definition dull_T (x : slab) : mat := fun i j => if Nat.eqb i j then exp (- ltau x / qx x i) else 0.
Inductive result (A : Type) := Done (a : A) | Exits.
Arguments Done {A}. Arguments Exits {A}.
Definition dull_layer (solar thermal : bool) (x : slab) : result layer :=
  if thermal then Exits
  else Done {| Rm := zmat; Tm := dull_T x; Sm := scale_add solar false (btran x) zvec zvec;
               Rp := zmat; Tp := dull_T x; Sp := scale_add solar false (btran x) zvec zvec |}.
(** get_layer_R_T_S_U_W_V, xrtm_model.c:2276-2305: [dull] is i_four >= n_coef_layer *)
Definition layer_of (dull solar thermal : bool) (x : slab) : result layer :=
  if dull || (if Req_EM_T (omega x) 0 then true else false) then dull_layer solar thermal x
  else Done (eig_layer solar thermal x).
End Ops.
Arguments Done {A}. Arguments Exits {A}.
