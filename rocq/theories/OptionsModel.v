(** Model of the static configuration checks of the interface:
    src/xrtm_interface.c:320-345 (check_solvers), 480-584 (xrtm_check_options),
    591-629 (xrtm_check_counts), 636-732 (xrtm_check_solvers), 739-750
    (update_n_four2) and the configuration part of 784-1035 (xrtm_create_misc).
    Diagnostics on stderr are not modelled. *)
From Coq Require Import ZArith NArith List Bool.
From Verif Require Import Base.
Import ListNotations.
Open Scope N_scope.

(** src/xrtm_interface.h:41-77, enum xrtm_option_mask. *)
Definition OPT_CALC_DERIVS        : N := bit 0.
Definition OPT_REVERSE_DERIVS     : N := bit 1.
Definition OPT_DELTA_M            : N := bit 2.
Definition OPT_N_T_TMS            : N := bit 3.
Definition OPT_FOUR_CONV_OLD      : N := bit 4.
Definition OPT_FOUR_CONV_NEW      : N := bit 5.
Definition OPT_NO_AZIMUTHAL       : N := bit 6.
Definition OPT_OUTPUT_AT_LEVELS   : N := bit 7.
Definition OPT_OUTPUT_AT_TAUS     : N := bit 8.
Definition OPT_PART_SOL_CLASSICAL : N := bit 9.
Definition OPT_PART_SOL_GREENS    : N := bit 10.
Definition OPT_PHASE_SCALAR       : N := bit 11.
Definition OPT_PHASE_MATRIX_GC    : N := bit 12.
Definition OPT_PHASE_MATRIX_LC    : N := bit 13.
Definition OPT_PSA                : N := bit 14.
Definition OPT_QUAD_NORM_GAUS_LEG : N := bit 15.
Definition OPT_QUAD_DOUB_GAUS_LEG : N := bit 16.
Definition OPT_QUAD_LOBATTO       : N := bit 17.
Definition OPT_SAVE_LEG_POLYS     : N := bit 18.
Definition OPT_SAVE_PHASE_MATS    : N := bit 19.
Definition OPT_SAVE_LOCAL_R_T     : N := bit 20.
Definition OPT_SAVE_LAYER_R_T_S   : N := bit 21.
Definition OPT_SAVE_TOTAL_R_T_S   : N := bit 22.
Definition OPT_SFI                : N := bit 23.
Definition OPT_SOURCE_SOLAR       : N := bit 24.
Definition OPT_SOURCE_THERMAL     : N := bit 25.
Definition OPT_STACK_REUSE_ADDING : N := bit 26.
Definition OPT_TOP_DOWN_ADDING    : N := bit 27.
Definition OPT_BOTTOM_UP_ADDING   : N := bit 28.
Definition OPT_UPWELLING_OUTPUT   : N := bit 29.
Definition OPT_DOWNWELLING_OUTPUT : N := bit 30.
Definition OPT_VECTOR             : N := bit 31.

(** src/xrtm_interface.h:86-101, enum xrtm_solver_mask. *)
Definition SOLVER_DOUB_ADD    : N := bit 0.
Definition SOLVER_EIG_ADD     : N := bit 1.
Definition SOLVER_EIG_BVP     : N := bit 2.
Definition SOLVER_FOUR_STREAM : N := bit 3.
Definition SOLVER_MEM_BVP     : N := bit 4.
Definition SOLVER_PADE_ADD    : N := bit 5.
Definition SOLVER_SINGLE      : N := bit 6.
Definition SOLVER_SIX_STREAM  : N := bit 7.
Definition SOLVER_SOS         : N := bit 8.
Definition SOLVER_TWO_OS      : N := bit 9.
Definition SOLVER_TWO_STREAM  : N := bit 10.

(** xrtm_interface.c:480-584, the tests in source order. *)
Definition check_options (o : N) : Z :=
  (* 487 *) if tst o OPT_N_T_TMS && tst o OPT_NO_AZIMUTHAL then RET_ERR else
  (* 492 *) if negb (tst o (N.lor OPT_FOUR_CONV_OLD OPT_FOUR_CONV_NEW)) then RET_ERR else
  (* 497 *) if tst o OPT_FOUR_CONV_OLD && tst o OPT_FOUR_CONV_NEW then RET_ERR else
  (* 502 *) if negb (tst o (N.lor OPT_OUTPUT_AT_LEVELS OPT_OUTPUT_AT_TAUS)) then RET_ERR else
  (* 507 *) if tst o OPT_OUTPUT_AT_LEVELS && tst o OPT_OUTPUT_AT_TAUS then RET_ERR else
  (* 512 *) if negb (tst o (N.lor OPT_PART_SOL_CLASSICAL OPT_PART_SOL_GREENS)) then RET_ERR else
  (* 517 *) if tst o OPT_PART_SOL_CLASSICAL && tst o OPT_PART_SOL_GREENS then RET_ERR else
  (* 522 *) if negb (tst o (N.lor OPT_PHASE_SCALAR (N.lor OPT_PHASE_MATRIX_GC OPT_PHASE_MATRIX_LC))) then RET_ERR else
  (* 527 *) if (tst o OPT_PHASE_SCALAR && tst o OPT_PHASE_MATRIX_GC)
               || (tst o OPT_PHASE_SCALAR && tst o OPT_PHASE_MATRIX_LC)
               || (tst o OPT_PHASE_MATRIX_GC && tst o OPT_PHASE_MATRIX_LC) then RET_ERR else
  (* 534 *) if negb (tst o (N.lor OPT_QUAD_NORM_GAUS_LEG (N.lor OPT_QUAD_DOUB_GAUS_LEG OPT_QUAD_LOBATTO))) then RET_ERR else
  (* 539 *) if (tst o OPT_QUAD_NORM_GAUS_LEG && tst o OPT_QUAD_DOUB_GAUS_LEG)
               || (tst o OPT_QUAD_NORM_GAUS_LEG && tst o OPT_QUAD_LOBATTO)
               || (tst o OPT_QUAD_DOUB_GAUS_LEG && tst o OPT_QUAD_LOBATTO) then RET_ERR else
  (* 546 *) if tst o OPT_SAVE_LAYER_R_T_S && tst o OPT_STACK_REUSE_ADDING then RET_ERR else
  (* 551 *) if tst o OPT_STACK_REUSE_ADDING && negb (tst o OPT_CALC_DERIVS) then RET_ERR else
  (* 556 *) if tst o OPT_STACK_REUSE_ADDING && tst o OPT_TOP_DOWN_ADDING then RET_ERR else
  (* 561 *) if tst o OPT_TOP_DOWN_ADDING && tst o OPT_BOTTOM_UP_ADDING then RET_ERR else
  (* 566 *) if negb (tst o (N.lor OPT_UPWELLING_OUTPUT OPT_DOWNWELLING_OUTPUT)) then RET_ERR else
  (* 571 *) if negb (tst o OPT_VECTOR) && tst o (N.lor OPT_PHASE_MATRIX_GC OPT_PHASE_MATRIX_LC) then RET_ERR else
  (* 577 *) if tst o OPT_VECTOR && negb (tst o (N.lor OPT_PHASE_MATRIX_GC OPT_PHASE_MATRIX_LC)) then RET_ERR else
  RET_OK.

(** xrtm_interface.c:591-629.  Unused parameters (n_layers, n_theta_0s, kernels ...)
    of the C function are left out. *)
Definition check_counts (o : N) (max_coef n_quad n_stokes n_derivs n_out_levels n_out_thetas : Z) : Z :=
  (* 593 *) if negb (tst o OPT_CALC_DERIVS) && (n_derivs >? 0)%Z then RET_ERR else
  (* 598 *) if tst o OPT_CALC_DERIVS && (n_derivs =? 0)%Z then RET_ERR else
  (* 603 *) if tst o OPT_DELTA_M && (max_coef <? 2 * n_quad + 1)%Z then RET_ERR else
  (* 608 *) if tst o OPT_SFI && (n_out_thetas =? 0)%Z then RET_ERR else
  (* 613 *) if tst o OPT_TOP_DOWN_ADDING && negb (n_out_levels =? 1)%Z then RET_ERR else
  (* 618 *) if tst o OPT_BOTTOM_UP_ADDING && negb (n_out_levels =? 1)%Z then RET_ERR else
  (* 623 *) if negb (tst o OPT_VECTOR) && (n_stokes >? 1)%Z then RET_ERR else
  RET_OK.

(** xrtm_interface.c:320-345: scan the variable arguments up to the terminating 0.
    Running off the end of the list (no terminator) cannot be expressed and does not
    occur: every call passes a terminating 0. *)
Fixpoint check_solvers_va (solvers : N) (args : list N) : Z :=
  match args with
  | [] => RET_OK
  | a :: rest =>
      if a =? 0 then RET_OK
      else if tst solvers a then RET_M1
      else check_solvers_va solvers rest
  end.

(** One guarded call inside xrtm_check_solvers: condition, excluded solvers, code returned. *)
Definition guard (cond : bool) (solvers : N) (args : list N) (code : Z) (rest : Z) : Z :=
  if cond && negb (check_solvers_va solvers args =? 0)%Z then code else rest.

(** xrtm_interface.c:636-732, guards in source order. *)
Definition check_solvers (o s : N) (n_quad n_theta_0s n_out_levels n_out_thetas : Z) : Z :=
  (* 638 *) guard (negb (n_quad =? 1)%Z) s [SOLVER_TWO_STREAM; 0] RET_ERR (
  (* 643 *) guard (negb (n_quad =? 2)%Z) s [SOLVER_FOUR_STREAM; 0] RET_ERR (
  (* 648 *) guard (negb (n_quad =? 3)%Z) s [SOLVER_SIX_STREAM; 0] RET_ERR (
  (* 653 *) guard (negb (n_theta_0s =? 1)%Z) s
              [SOLVER_EIG_ADD; SOLVER_EIG_BVP; SOLVER_FOUR_STREAM; SOLVER_MEM_BVP; SOLVER_PADE_ADD;
               SOLVER_SINGLE; SOLVER_SIX_STREAM; SOLVER_SOS; SOLVER_TWO_OS; SOLVER_TWO_STREAM; 0] RET_ERR (
  (* 658 *) guard (n_out_levels >? 2)%Z s
              [SOLVER_DOUB_ADD; SOLVER_EIG_ADD; SOLVER_PADE_ADD; SOLVER_SOS; SOLVER_TWO_OS; 0] RET_ERR (
  (* 663 *) guard ((n_out_thetas >? 0)%Z && negb (tst o OPT_SFI)) s
              [SOLVER_TWO_STREAM; SOLVER_FOUR_STREAM; SOLVER_SIX_STREAM; 0] RET_ERR (
  (* 668 *) guard (tst o OPT_DELTA_M && negb (tst o OPT_N_T_TMS)) s [SOLVER_SINGLE; 0] RET_ERR (
  (* 673 *) guard (tst o OPT_N_T_TMS) s [SOLVER_TWO_OS; 0] RET_ERR (
  (* 678 *) guard (tst o OPT_NO_AZIMUTHAL) s [SOLVER_SINGLE; 0] RET_ERR (
  (* 683 *) guard (tst o OPT_OUTPUT_AT_TAUS) s
              [SOLVER_DOUB_ADD; SOLVER_EIG_ADD; SOLVER_PADE_ADD; SOLVER_SOS; 0] RET_ERR (
  (* 688 *) guard (tst o OPT_QUAD_LOBATTO) s
              [SOLVER_DOUB_ADD; SOLVER_EIG_ADD; SOLVER_EIG_BVP; SOLVER_FOUR_STREAM; SOLVER_MEM_BVP;
               SOLVER_PADE_ADD; SOLVER_SINGLE; SOLVER_SIX_STREAM; SOLVER_SOS; SOLVER_TWO_OS;
               SOLVER_TWO_STREAM; 0] RET_M1 (
  (* 693 *) guard (tst o OPT_SFI) s
              [SOLVER_DOUB_ADD; SOLVER_EIG_ADD; SOLVER_MEM_BVP; SOLVER_PADE_ADD; SOLVER_SOS; 0] RET_ERR (
  (* 701 *) guard (negb (tst o OPT_SOURCE_SOLAR)) s
              [SOLVER_MEM_BVP; SOLVER_SINGLE; SOLVER_SOS; SOLVER_TWO_OS; 0] RET_ERR (
  (* 706 *) guard (tst o OPT_SOURCE_THERMAL) s
              [SOLVER_FOUR_STREAM; SOLVER_MEM_BVP; SOLVER_SINGLE; SOLVER_SIX_STREAM; SOLVER_SOS;
               SOLVER_TWO_OS; SOLVER_TWO_STREAM; 0] RET_ERR (
  (* 711 *) guard (tst o OPT_STACK_REUSE_ADDING) s
              [SOLVER_EIG_BVP; SOLVER_MEM_BVP; SOLVER_SINGLE; SOLVER_SOS; SOLVER_TWO_OS; 0] RET_ERR (
  (* 716 *) guard (tst o OPT_TOP_DOWN_ADDING) s
              [SOLVER_EIG_BVP; SOLVER_MEM_BVP; SOLVER_SINGLE; SOLVER_SOS; SOLVER_TWO_OS; 0] RET_ERR (
  (* 721 *) guard (tst o OPT_BOTTOM_UP_ADDING) s
              [SOLVER_EIG_BVP; SOLVER_MEM_BVP; SOLVER_SINGLE; SOLVER_SOS; SOLVER_TWO_OS; 0] RET_ERR (
  RET_OK))))))))))))))))).

(** xrtm_interface.c:900-923, implicit configuration settings, in source order. *)
Definition implicit_options (o : N) (n_stokes : Z) : N :=
  let o := (* 900 *) if (n_stokes >? 1)%Z then N.lor o OPT_VECTOR else o in
  let o := (* 903 *) if tst o OPT_N_T_TMS then N.lor o OPT_DELTA_M else o in
  let o := (* 906 *) if negb (tst o (N.lor OPT_FOUR_CONV_OLD OPT_FOUR_CONV_NEW))
           then N.lor o OPT_FOUR_CONV_NEW else o in
  let o := (* 909 *) if negb (tst o (N.lor OPT_PART_SOL_CLASSICAL OPT_PART_SOL_GREENS))
           then N.lor o OPT_PART_SOL_CLASSICAL else o in
  let o := (* 912 *) if negb (tst o (N.lor OPT_PHASE_SCALAR (N.lor OPT_PHASE_MATRIX_GC OPT_PHASE_MATRIX_LC)))
           then (if negb (tst o OPT_VECTOR) then N.lor o OPT_PHASE_SCALAR else N.lor o OPT_PHASE_MATRIX_GC)
           else o in
  let o := (* 919 *) if negb (tst o (N.lor OPT_QUAD_NORM_GAUS_LEG (N.lor OPT_QUAD_DOUB_GAUS_LEG OPT_QUAD_LOBATTO)))
           then N.lor o OPT_QUAD_DOUB_GAUS_LEG else o in
  let o := (* 922 *) if negb (tst o (N.lor OPT_UPWELLING_OUTPUT OPT_DOWNWELLING_OUTPUT))
           then N.lor o (N.lor OPT_UPWELLING_OUTPUT OPT_DOWNWELLING_OUTPUT) else o in
  o.

(** Arguments of xrtm_create (xrtm_interface.c:757). *)
Record create_args := {
  a_options : N; a_solvers : N;
  a_max_coef : Z; a_n_quad : Z; a_n_stokes : Z; a_n_derivs : Z; a_n_layers : Z;
  a_n_theta_0s : Z; a_n_kernels : Z; a_n_kernel_quad : Z; a_kernels : list Z;
  a_n_out_levels : Z; a_n_out_thetas : Z }.

(** The configuration fields of xrtm_data fixed at creation. *)
Record config := {
  c_options : N; c_solvers : N;
  c_n_coef : Z; c_n_coef2 : Z; c_n_four : Z; c_n_four2 : Z; c_n_elem : Z;
  c_n_quad : Z; c_n_stokes : Z; c_n_derivs : Z; c_n_layers : Z;
  c_n_theta_0s : Z; c_n_kernels : Z; c_n_kernel_quad : Z; c_kernels : list Z;
  c_n_ulevels : Z; c_n_umus : Z; c_n_out_thetas_2 : Z }.

(** src/xrtm_brdf.h/.c:61-69, kernel_is_valid with N_XRTM_KERNEL_TYPES = 11. *)
Definition kernel_is_valid (t : Z) : bool := negb ((t <? 0)%Z || (t >=? 11)%Z).

(** xrtm_interface.c:739-750 (update_n_four2), boolean inputs: [mu1] is
    [flag1 && mu_0_0 == 1.], [um1] is [flag2 && n_umus == 1 && umus[0] == 1.]. *)
Definition update_n_four2 (o : N) (n_stokes n_four : Z) (mu1 um1 : bool) : Z :=
  if tst o OPT_NO_AZIMUTHAL
     || (negb (tst o OPT_SOURCE_SOLAR) && tst o OPT_SOURCE_THERMAL)
     || ((n_stokes =? 1)%Z && (mu1 || um1))
  then 1%Z else n_four.

(** xrtm_interface.c:784-1035.  The kernels array is a list; [kernels[i]] for
    i < n_kernels beyond the list is undefined behaviour. *)
Fixpoint kernels_ok (ks : list Z) (n : nat) : outcome bool :=
  match n with
  | O => Ok true
  | S n' => match ks with
            | [] => UB
            | k :: ks' => if kernel_is_valid k then kernels_ok ks' n' else Ok false
            end
  end.

Definition create_dims (a : create_args) (o : N) : config :=
  let two_n_quad := (2 * a_n_quad a)%Z in
  let '(n_four, n_coef2) :=
    if (a_max_coef a =? 0)%Z then (1, 0)%Z
    else if (a_max_coef a <=? two_n_quad)%Z then (a_max_coef a, a_max_coef a)
    else (two_n_quad, two_n_quad) in
  let n_four := if tst o OPT_NO_AZIMUTHAL then 1%Z else n_four in
  let o' := if tst o OPT_PHASE_MATRIX_LC then N.lor o OPT_SAVE_PHASE_MATS else o in
  {| c_options := o'; c_solvers := a_solvers a;
     c_n_coef := a_max_coef a; c_n_coef2 := n_coef2; c_n_four := n_four;
     c_n_four2 := update_n_four2 o' (a_n_stokes a) n_four false false;
     c_n_elem := if (a_n_stokes a =? 1)%Z then 1%Z else 6%Z;
     c_n_quad := a_n_quad a; c_n_stokes := a_n_stokes a;
     c_n_derivs := if negb (tst o OPT_CALC_DERIVS) then 0%Z else a_n_derivs a;
     c_n_layers := a_n_layers a; c_n_theta_0s := a_n_theta_0s a;
     c_n_kernels := a_n_kernels a; c_n_kernel_quad := a_n_kernel_quad a;
     c_kernels := firstn (Z.to_nat (a_n_kernels a)) (a_kernels a);
     c_n_ulevels := a_n_out_levels a; c_n_umus := a_n_out_thetas a;
     c_n_out_thetas_2 := if (a_n_out_thetas a =? 0)%Z then a_n_quad a else a_n_out_thetas a |}.

(** xrtm_interface.c:784-1035: range checks (829-894), implicit options, the three
    checks (929-950), derived dimensions.  Allocation is not modelled. *)
Definition create_config (a : create_args) : outcome config :=
  if (a_max_coef a <? 0)%Z then Err RET_ERR else
  if (a_n_quad a <=? 0)%Z then Err RET_ERR else
  if ((a_n_stokes a <=? 0)%Z || (a_n_stokes a >? 4)%Z) then Err RET_ERR else
  if (a_n_derivs a <? 0)%Z then Err RET_ERR else
  if (a_n_layers a <=? 0)%Z then Err RET_ERR else
  if (a_n_theta_0s a <=? 0)%Z then Err RET_ERR else
  if (a_n_kernels a <? 0)%Z then Err RET_ERR else
  if ((a_n_kernels a >? 0)%Z && (a_n_kernel_quad a <=? 0)%Z) then Err RET_ERR else
  match kernels_ok (a_kernels a) (Z.to_nat (a_n_kernels a)) with
  | UB => UB
  | Err c => Err c
  | Ok false => Err RET_ERR
  | Ok true =>
    if (a_n_out_levels a <=? 0)%Z then Err RET_ERR else
    if (a_n_out_thetas a <? 0)%Z then Err RET_ERR else
    let o := implicit_options (a_options a) (a_n_stokes a) in
    if negb (check_options o =? 0)%Z then Err RET_ERR else
    if negb (check_counts o (a_max_coef a) (a_n_quad a) (a_n_stokes a) (a_n_derivs a)
               (a_n_out_levels a) (a_n_out_thetas a) =? 0)%Z then Err RET_ERR else
    if negb (check_solvers o (a_solvers a) (a_n_quad a) (a_n_theta_0s a)
               (a_n_out_levels a) (a_n_out_thetas a) =? 0)%Z then Err RET_ERR else
    Ok (create_dims a o)
  end.
