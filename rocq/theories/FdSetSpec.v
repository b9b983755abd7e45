(** What setting and reading the finite-difference perturbations means. *)
From Coq Require Import Reals ZArith List.
From Verif Require Import Base FdSetModel.
Import ListNotations.
Open Scope Z_scope.

(** The sizes of a handle *)
Definition sane (d : shape) : Prop :=
  (forall i, 0 <= i < n_layers d -> n_coef_layer d i <= n_coef d) /\ (forall i, 0 <= i < n_kernels d -> n_params d i <= 4).

(** The arguments a call accepts *)
Definition accepts (d : shape) (o : setter) : Prop :=
  let L i := 0 <= i < n_layers d in
  let D j := 0 <= j < n_derivs d in
  let K i := 0 <= i < n_kernels d in
  match o with
  | set_delta _ | set_F_iso_top_p_n _ | set_F_iso_bot_p_n _ => True
  | set_F_iso_top_p_1 j _ | set_F_iso_bot_p_1 j _ => D j
  | set_levels_b_p_1 _ _ | set_levels_b_p_n _ | set_surface_b_p_n _ => is_thermal d = true
  | set_surface_b_p_1 j _ => is_thermal d = true /\ D j
  | set_coef_p_11 i j _ => uses_coef d = true /\ L i /\ D j
  | set_coef_p_n1 j _ => uses_coef d = true /\ L 0 /\ D j
  | set_coef_p_1n i _ => uses_coef d = true /\ L i /\ D 0
  | set_coef_p_nn _ => uses_coef d = true /\ L 0 /\ D 0
  | set_omega_p_11 i j _ | set_ltau_p_11 i j _ => L i /\ D j
  | set_omega_p_n1 j _ | set_ltau_p_n1 j _ => L 0 /\ D j
  | set_omega_p_1n i _ | set_ltau_p_1n i _ => L i /\ D 0
  | set_omega_p_nn _ | set_ltau_p_nn _ => L 0 /\ D 0
  | set_kernel_ampfac_p_1 i j _ => K i /\ D j
  | set_kernel_ampfac_p_n i _ => K i
  | set_kernel_params_p_11 i j k _ => K i /\ D j /\ 0 <= k < n_params d i
  | set_kernel_params_p_1n i j _ => K i /\ D j
  | set_kernel_params_p_n1 i k _ => K i /\ 0 <= k < n_params d i
  | set_kernel_params_p_nn i _ => K i
  end.

(** The setting [c] is given the value [v] by the call. *)
Definition gives (d : shape) (o : setter) (c : cell) (v : R) : Prop :=
  let L i := 0 <= i < n_layers d in
  let D j := 0 <= j < n_derivs d in
  let EC i k l := 0 <= k < n_elem d /\ 0 <= l < n_coef_layer d i in
  match o with
  | set_delta x => exists j, D j /\ c = Delta j /\ v = x j
  | set_F_iso_top_p_1 j x => c = FTop j /\ v = x
  | set_F_iso_top_p_n x => exists j, D j /\ c = FTop j /\ v = x j
  | set_F_iso_bot_p_1 j x => c = FBot j /\ v = x
  | set_F_iso_bot_p_n x => exists j, D j /\ c = FBot j /\ v = x j
  | set_levels_b_p_1 j x => exists i, 0 <= i <= n_layers d /\ c = Lev i j /\ v = x i
  | set_levels_b_p_n x => exists i j, 0 <= i <= n_layers d /\ D j /\ c = Lev i j /\ v = x i j
  | set_surface_b_p_1 j x => c = Surf j /\ v = x
  | set_surface_b_p_n x => exists j, D j /\ c = Surf j /\ v = x j
  | set_coef_p_11 i j x => exists k l, EC i k l /\ c = Coef i j k l /\ v = x k l
  | set_coef_p_n1 j x => exists i k l, L i /\ EC i k l /\ c = Coef i j k l /\ v = x i k l
  | set_coef_p_1n i x => exists j k l, D j /\ EC i k l /\ c = Coef i j k l /\ v = x j k l
  | set_coef_p_nn x => exists i j k l, L i /\ D j /\ EC i k l /\ c = Coef i j k l /\ v = x i j k l
  | set_omega_p_11 i j x => c = Omega i j /\ v = x
  | set_omega_p_n1 j x => exists i, L i /\ c = Omega i j /\ v = x i
  | set_omega_p_1n i x => exists j, D j /\ c = Omega i j /\ v = x j
  | set_omega_p_nn x => exists i j, L i /\ D j /\ c = Omega i j /\ v = x i j
  | set_ltau_p_11 i j x => c = Ltau i j /\ v = x
  | set_ltau_p_n1 j x => exists i, L i /\ c = Ltau i j /\ v = x i
  | set_ltau_p_1n i x => exists j, D j /\ c = Ltau i j /\ v = x j
  | set_ltau_p_nn x => exists i j, L i /\ D j /\ c = Ltau i j /\ v = x i j
  | set_kernel_ampfac_p_1 i j x => c = Amp i j /\ v = x
  | set_kernel_ampfac_p_n i x => exists j, D j /\ c = Amp i j /\ v = x j
  | set_kernel_params_p_11 i j k x => c = Par i j k /\ v = x
  | set_kernel_params_p_1n i j x => exists k, 0 <= k < n_params d i /\ c = Par i j k /\ v = x k
  | set_kernel_params_p_n1 i k x => exists j, D j /\ c = Par i j k /\ v = x j
  | set_kernel_params_p_nn i x => exists j k, D j /\ 0 <= k < n_params d i /\ c = Par i j k /\ v = x j k
  end.
(** The one setter that does not do what it says *)
Definition broken (o : setter) : bool := match o with set_levels_b_p_1 _ _ => true | _ => false end.

(** The settings a handle has *)
Definition exists_in (d : shape) (c : cell) : Prop :=
  let L i := 0 <= i < n_layers d in
  let D j := 0 <= j < n_derivs d in
  let K i := 0 <= i < n_kernels d in
  match c with
  | Delta j | FTop j | FBot j => D j
  | Surf j => is_thermal d = true /\ D j
  | Lev i j => is_thermal d = true /\ 0 <= i <= n_layers d /\ D j
  | Omega i j | Ltau i j => L i /\ D j
  | Coef i j k l => uses_coef d = true /\ L i /\ D j /\ 0 <= k < n_elem d /\ 0 <= l < n_coef_layer d i
  | Amp i j => K i /\ D j
  | Par i j k => K i /\ D j /\ 0 <= k < n_params d i
  end.
(** The caller chooses the element of an array the call returns whole; it is taken to be one of them. *)
Definition element (d : shape) (c : cell) : Prop :=
  match c with Delta j => 0 <= j < n_derivs d | Lev i j => 0 <= i <= n_layers d | _ => True end.

(** The value last given to [c] by the calls accepted, in the order made, and [v0] before *)
Inductive last_given (d : shape) (c : cell) : list setter -> option R -> option R -> Prop :=
| never v : last_given d c [] v v
| now o os v x w : accepts d o -> gives d o c x -> last_given d c os (Some x) w -> last_given d c (o :: os) v w
| not_here o os v w : ~ (accepts d o /\ exists x, gives d o c x) -> last_given d c os v w -> last_given d c (o :: os) v w.
