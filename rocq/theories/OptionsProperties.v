(** Properties C01-C05: static configuration of a handle. *)
From Coq Require Import ZArith NArith List.
From Verif Require Import Base OptionsModel OptionsSpec OptionsProofs.
Import ListNotations.

(** C01: xrtm_check_options accepts exactly the consistent option sets, and its only
    other result is XRTM_INT_ERROR. *)
Theorem C01_check_options_exact : forall o,
  (check_options o = RET_OK <-> valid_options o) /\
  (check_options o = RET_OK \/ check_options o = RET_ERR).
Proof. intro o. split; [apply check_options_exact|apply check_options_codes]. Qed.
Print Assumptions C01_check_options_exact.

(** levels output, classical, scalar, doub quadrature, both directions, new convergence *)
Definition ex_options : N :=
  ors [OPT_OUTPUT_AT_LEVELS; OPT_PART_SOL_CLASSICAL; OPT_PHASE_SCALAR; OPT_QUAD_DOUB_GAUS_LEG;
       OPT_FOUR_CONV_NEW; OPT_UPWELLING_OUTPUT; OPT_SOURCE_SOLAR].
Example C01_accepts : check_options ex_options = RET_OK. Proof. vm_compute. reflexivity. Qed.
Example C01_rejects_two_quads :
  check_options (N.lor ex_options OPT_QUAD_LOBATTO) = RET_ERR. Proof. vm_compute. reflexivity. Qed.

(** C02: completion with defaults. *)
Theorem C02_implicit_minimal : forall o n_stokes,
  completes o n_stokes (implicit_options o n_stokes).
Proof. exact implicit_completes. Qed.
Print Assumptions C02_implicit_minimal.

Theorem C02_implicit_idempotent : forall o n_stokes,
  implicit_options (implicit_options o n_stokes) n_stokes = implicit_options o n_stokes.
Proof. exact implicit_idem. Qed.
Print Assumptions C02_implicit_idempotent.

Theorem C02_created_mask : forall a c,
  kernels_long_enough a -> create_config a = Ok c ->
  check_options (c_options c) = RET_OK /\
  (forall x, on (c_options c) x <->
     on (a_options a) x \/ default_rule (a_options a) (a_n_stokes a) x \/
     (x = SavePhaseMats /\ on (a_options a) PhaseMatrixLc)).
Proof. exact create_stored_valid. Qed.
Print Assumptions C02_created_mask.

(** C03 *)
Theorem C03_check_counts_exact : forall o max_coef n_quad n_stokes n_derivs n_out_levels n_out_thetas,
  check_counts o max_coef n_quad n_stokes n_derivs n_out_levels n_out_thetas = RET_OK <->
  valid_counts o max_coef n_quad n_stokes n_derivs n_out_levels n_out_thetas.
Proof. exact check_counts_exact. Qed.
Print Assumptions C03_check_counts_exact.

Example C03_accepts : check_counts (N.lor OPT_CALC_DERIVS OPT_DELTA_M) 17 8 1 3 2 0 = RET_OK.
Proof. vm_compute. reflexivity. Qed.
Example C03_rejects : check_counts (N.lor OPT_CALC_DERIVS OPT_DELTA_M) 16 8 1 3 2 0 = RET_ERR.
Proof. vm_compute. reflexivity. Qed.

(** C04 *)
Theorem C04_check_solvers_exact : forall o s n_quad n_theta_0s n_out_levels n_out_thetas,
  check_solvers o s n_quad n_theta_0s n_out_levels n_out_thetas = RET_OK <->
  (forall x, wants s x -> compatible o n_quad n_theta_0s n_out_levels n_out_thetas x).
Proof. exact check_solvers_exact. Qed.
Print Assumptions C04_check_solvers_exact.

Theorem C04_fewer_solvers_still_accepted : forall o s s' n_quad n_theta_0s n_out_levels n_out_thetas,
  (forall x, wants s' x -> wants s x) ->
  check_solvers o s n_quad n_theta_0s n_out_levels n_out_thetas = RET_OK ->
  check_solvers o s' n_quad n_theta_0s n_out_levels n_out_thetas = RET_OK.
Proof. exact check_solvers_mono. Qed.
Print Assumptions C04_fewer_solvers_still_accepted.

Theorem C04_created_solvers_compatible : forall a c x,
  kernels_long_enough a -> create_config a = Ok c -> wants (c_solvers c) x ->
  compatible (c_options c) (c_n_quad c) (c_n_theta_0s c) (c_n_ulevels c) (c_n_umus c) x.
Proof. exact created_solvers_compatible. Qed.
Print Assumptions C04_created_solvers_compatible.

Example C04_accepts :
  check_solvers ex_options (ors [SOLVER_EIG_BVP; SOLVER_EIG_ADD; SOLVER_TWO_OS]) 8 1 2 0 = RET_OK.
Proof. vm_compute. reflexivity. Qed.
Example C04_rejects :
  check_solvers ex_options (ors [SOLVER_EIG_BVP; SOLVER_EIG_ADD; SOLVER_TWO_OS]) 8 1 3 0 = RET_ERR.
Proof. vm_compute. reflexivity. Qed.

(** C05 *)
Theorem C05_create_exact : forall a, kernels_long_enough a ->
  ((exists c, create_config a = Ok c) <-> valid_args a) /\
  (~ valid_args a -> create_config a = Err RET_ERR).
Proof. exact create_exact. Qed.
Print Assumptions C05_create_exact.

Theorem C05_create_dimensions : forall a c, kernels_long_enough a -> create_config a = Ok c ->
  let one_four := on (a_options a) NoAzimuthal in
  let thermal_only := ~ on (a_options a) SourceSolar /\ on (a_options a) SourceThermal in
  (c_n_coef2 c = Z.min (a_max_coef a) (2 * a_n_quad a))%Z /\
  (one_four -> c_n_four c = 1)%Z /\
  (~ one_four -> c_n_four c = Z.max 1 (Z.min (a_max_coef a) (2 * a_n_quad a)))%Z /\
  (one_four \/ thermal_only -> c_n_four2 c = 1)%Z /\
  (~ one_four -> ~ thermal_only -> c_n_four2 c = c_n_four c) /\
  (on (a_options a) CalcDerivs -> c_n_derivs c = a_n_derivs a /\ 1 <= c_n_derivs c)%Z /\
  (~ on (a_options a) CalcDerivs -> c_n_derivs c = 0)%Z /\
  (c_n_out_thetas_2 c = if (a_n_out_thetas a =? 0)%Z then a_n_quad a else a_n_out_thetas a) /\
  (Z.of_nat (length (c_kernels c)) = a_n_kernels a)%Z.
Proof. exact create_dims_bounds. Qed.
Print Assumptions C05_create_dimensions.

Definition ex_args : create_args :=
  {| a_options := ors [OPT_OUTPUT_AT_LEVELS; OPT_CALC_DERIVS; OPT_SOURCE_SOLAR; OPT_DELTA_M];
     a_solvers := ors [SOLVER_EIG_BVP; SOLVER_EIG_ADD];
     a_max_coef := 30; a_n_quad := 8; a_n_stokes := 1; a_n_derivs := 3; a_n_layers := 10;
     a_n_theta_0s := 1; a_n_kernels := 1; a_n_kernel_quad := 16; a_kernels := [0%Z];
     a_n_out_levels := 2; a_n_out_thetas := 0 |}.
Example C05_creates : kernels_long_enough ex_args /\
  exists c, create_config ex_args = Ok c /\ c_n_four c = 16%Z /\ c_n_coef2 c = 16%Z.
Proof. split; [vm_compute; discriminate|]. eexists. vm_compute. auto. Qed.
