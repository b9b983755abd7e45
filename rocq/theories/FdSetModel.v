(** The settings of the finite differences: the setters and getters of src/xrtm_fd_interface.c:206-984.

    A setter checks its arguments and then makes a list of stores, in the order of its loops; a store or load outside the
    arrays allocated by xrtm_fd_create (74-97) is undefined behaviour, as is the use of an uninitialised index.  The arrays
    passed by the caller are functions: they are taken to be as large as the call requires.  Not modelled: the accessors of g
    (XRTM_SOLVERS_USE_G is empty in the default build). *)
From Coq Require Import Reals ZArith Bool List.
From Verif Require Import Base HandleModel.
Import ListNotations.
Open Scope Z_scope.

(** The handle as far as it matters here: its sizes, the number of coefficients set for each layer, the number of parameters of
    each kernel, XRTM_OPTION_SOURCE_THERMAL, a solver of XRTM_SOLVERS_USE_COEF, and the n_derivs of xrtm_fd_create *)
Record shape := { n_layers : Z; n_elem : Z; n_coef : Z; n_coef_layer : Z -> Z; n_kernels : Z; n_params : Z -> Z; is_thermal : bool; uses_coef : bool; n_derivs : Z }.
(** MAX_KERNEL_PARAMS, src/xrtm_brdf.h:20 *)
Definition MAX_KERNEL_PARAMS : Z := 4.

Inductive cell := Delta (j : Z) | FTop (j : Z) | FBot (j : Z) | Surf (j : Z) | Lev (i j : Z) | Omega (i j : Z) | Ltau (i j : Z)
  | Coef (i j k l : Z) | Amp (i j : Z) | Par (i j k : Z).
Definition allocated (d : shape) (c : cell) : bool :=
  let D j := in_range j (n_derivs d) in
  match c with
  | Delta j | FTop j | FBot j => D j                                                          (* 74-77 *)
  | Surf j => is_thermal d && D j                                                             (* 90-91 *)
  | Lev i j => is_thermal d && in_range i (n_layers d + 1) && D j                             (* 79-80 *)
  | Omega i j | Ltau i j => in_range i (n_layers d) && D j                                    (* 82-83 *)
  | Coef i j k l => uses_coef d && in_range i (n_layers d) && D j && in_range k (n_elem d) && in_range l (n_coef d)   (* 87-88 *)
  | Amp i j => in_range i (n_kernels d) && D j                                                (* 93-94 *)
  | Par i j k => in_range i (n_kernels d) && D j && in_range k MAX_KERNEL_PARAMS              (* 93, 96 *)
  end.

Inductive setter :=
| set_delta (x : Z -> R)
| set_F_iso_top_p_1 (j : Z) (x : R) | set_F_iso_top_p_n (x : Z -> R)
| set_F_iso_bot_p_1 (j : Z) (x : R) | set_F_iso_bot_p_n (x : Z -> R)
| set_levels_b_p_1 (j : Z) (x : Z -> R) | set_levels_b_p_n (x : Z -> Z -> R)
| set_surface_b_p_1 (j : Z) (x : R) | set_surface_b_p_n (x : Z -> R)
| set_coef_p_11 (i j : Z) (x : Z -> Z -> R) | set_coef_p_n1 (j : Z) (x : Z -> Z -> Z -> R)
| set_coef_p_1n (i : Z) (x : Z -> Z -> Z -> R) | set_coef_p_nn (x : Z -> Z -> Z -> Z -> R)
| set_omega_p_11 (i j : Z) (x : R) | set_omega_p_n1 (j : Z) (x : Z -> R) | set_omega_p_1n (i : Z) (x : Z -> R) | set_omega_p_nn (x : Z -> Z -> R)
| set_ltau_p_11 (i j : Z) (x : R) | set_ltau_p_n1 (j : Z) (x : Z -> R) | set_ltau_p_1n (i : Z) (x : Z -> R) | set_ltau_p_nn (x : Z -> Z -> R)
| set_kernel_ampfac_p_1 (i j : Z) (x : R) | set_kernel_ampfac_p_n (i : Z) (x : Z -> R)
| set_kernel_params_p_11 (i j k : Z) (x : R) | set_kernel_params_p_1n (i j : Z) (x : Z -> R)
| set_kernel_params_p_n1 (i k : Z) (x : Z -> R) | set_kernel_params_p_nn (i : Z) (x : Z -> Z -> R).

Definition stores := list (cell * R).
(** CHECK_INDEX_RANGE, and the other checks that end a call with an error *)
Definition check (b : bool) (k : outcome stores) : outcome stores := if b then k else Err 1.
(** the loop over the derivatives *)
Definition each_deriv (d : shape) (f : Z -> cell * R) : outcome stores := Ok (map f (zseq 0 (n_derivs d))).
(** xrtm_set_layer_x_l, src/xrtm_support.c:154-191, with [src ii jj] the switch over the type *)
Definition layer_x (mk : Z -> Z -> cell) (src : Z -> Z -> R) (i_layer n_layers i_deriv n_derivs : Z) : outcome stores :=
  Ok (flat_map (fun i => map (fun j => (mk i j, src (i - i_layer) (j - i_deriv))) (zseq i_deriv n_derivs)) (zseq i_layer n_layers)).
(** 663-685, 750-765 *)
Definition set_layer_x_p (d : shape) (mk : Z -> Z -> cell) (src : Z -> Z -> R) (i_layer n_lay i_deriv n_der : Z) : outcome stores :=
  check (in_range i_layer (n_layers d)) (check (in_range i_deriv (n_derivs d)) (layer_x mk src i_layer n_lay i_deriv n_der)).
(** 528-591 *)
Definition set_coef_x_p (d : shape) (src : Z -> Z -> Z -> Z -> R) (i_layer n_lay i_deriv n_der : Z) : outcome stores :=
  check (uses_coef d) (check (in_range i_layer (n_layers d)) (check (in_range i_deriv (n_derivs d))
    (Ok (flat_map (fun i => flat_map (fun j => flat_map (fun k => map (fun l => (Coef i j k l, src (i - i_layer) (j - i_deriv) k l))
      (zseq 0 (n_coef_layer d i))) (zseq 0 (n_elem d))) (zseq i_deriv n_der)) (zseq i_layer n_lay))))).

Definition plan (d : shape) (o : setter) : outcome stores :=
  let D j := in_range j (n_derivs d) in
  let K i := in_range i (n_kernels d) in      (* CHECK_N_KERNELS_NOT_ZERO fails when K i does *)
  match o with
  | set_delta x => each_deriv d (fun j => (Delta j, x j))                                                 (* 206-214 *)
  | set_F_iso_top_p_1 j x => check (D j) (Ok [(FTop j, x)])                                               (* 232-241 *)
  | set_F_iso_top_p_n x => each_deriv d (fun j => (FTop j, x j))                                          (* 245-255 *)
  | set_F_iso_bot_p_1 j x => check (D j) (Ok [(FBot j, x)])                                               (* 271-280 *)
  | set_F_iso_bot_p_n x => each_deriv d (fun j => (FBot j, x j))                                          (* 284-294 *)
  | set_levels_b_p_1 j x =>                                                                               (* 310-328: the index j of 323 is never set *)
      check (is_thermal d) (if 0 <=? n_layers d then UB else Ok [])
  | set_levels_b_p_n x => check (is_thermal d)                                                            (* 332-352 *)
      (Ok (flat_map (fun i => map (fun j => (Lev i j, x i j)) (zseq 0 (n_derivs d))) (zseq 0 (n_layers d + 1))))
  | set_surface_b_p_1 j x => check (is_thermal d) (check (D j) (Ok [(Surf j, x)]))                        (* 378-392 *)
  | set_surface_b_p_n x => check (is_thermal d) (each_deriv d (fun j => (Surf j, x j)))                   (* 396-411 *)
  | set_coef_p_11 i j x => set_coef_x_p d (fun _ _ k l => x k l) i (i + 1) j (j + 1)                      (* 595-603 *)
  | set_coef_p_n1 j x => set_coef_x_p d (fun ii _ k l => x ii k l) 0 (n_layers d) j (j + 1)               (* 607-615 *)
  | set_coef_p_1n i x => set_coef_x_p d (fun _ jj k l => x jj k l) i (i + 1) 0 (n_derivs d)               (* 619-627 *)
  | set_coef_p_nn x => set_coef_x_p d (fun ii jj k l => x ii jj k l) 0 (n_layers d) 0 (n_derivs d)        (* 631-639 *)
  | set_omega_p_11 i j x => set_layer_x_p d Omega (fun _ _ => x) i (i + 1) j (j + 1)                      (* 689-697 *)
  | set_omega_p_n1 j x => set_layer_x_p d Omega (fun ii _ => x ii) 0 (n_layers d) j (j + 1)               (* 701-709 *)
  | set_omega_p_1n i x => set_layer_x_p d Omega (fun _ jj => x jj) i (i + 1) 0 (n_derivs d)               (* 713-721 *)
  | set_omega_p_nn x => set_layer_x_p d Omega (fun ii jj => x ii jj) 0 (n_layers d) 0 (n_derivs d)        (* 725-733 *)
  | set_ltau_p_11 i j x => set_layer_x_p d Ltau (fun _ _ => x) i (i + 1) j (j + 1)                        (* 769-777 *)
  | set_ltau_p_n1 j x => set_layer_x_p d Ltau (fun ii _ => x ii) 0 (n_layers d) j (j + 1)                 (* 781-789 *)
  | set_ltau_p_1n i x => set_layer_x_p d Ltau (fun _ jj => x jj) i (i + 1) 0 (n_derivs d)                 (* 793-801 *)
  | set_ltau_p_nn x => set_layer_x_p d Ltau (fun ii jj => x ii jj) 0 (n_layers d) 0 (n_derivs d)          (* 805-813 *)
  | set_kernel_ampfac_p_1 i j x => check (K i) (check (D j) (Ok [(Amp i j, x)]))                          (* 830-842 *)
  | set_kernel_ampfac_p_n i x => check (K i) (each_deriv d (fun j => (Amp i j, x j)))                     (* 846-860 *)
  | set_kernel_params_p_11 i j k x => check (K i) (check (D j) (check (in_range k (n_params d i)) (Ok [(Par i j k, x)])))   (* 876-894 *)
  | set_kernel_params_p_1n i j x => check (K i) (check (D j) (Ok (map (fun k => (Par i j k, x k)) (zseq 0 (n_params d i)))))   (* 898-917 *)
  | set_kernel_params_p_n1 i k x => check (K i) (check (in_range k (n_params d i)) (each_deriv d (fun j => (Par i j k, x j))))   (* 920-940 *)
  | set_kernel_params_p_nn i x => check (K i)                                                             (* 944-966 *)
      (Ok (flat_map (fun j => map (fun k => (Par i j k, x j k)) (zseq 0 (n_params d i))) (zseq 0 (n_derivs d))))
  end.

Definition cell_eq (a b : cell) : {a = b} + {a <> b}.
Proof. decide equality; apply Z.eq_dec. Defined.
(** The contents of the arrays; None: never written *)
Definition memory := cell -> option R.
Definition store (m : memory) (w : cell * R) : memory := fun c => if cell_eq c (fst w) then Some (snd w) else m c.
(** xrtm_fd_create, 111-132: everything but delta is set to zero *)
Definition created : memory := fun c => match c with Delta _ => None | _ => Some 0%R end.
(** The effect of a call on the settings *)
Definition set (d : shape) (o : setter) (m : memory) : outcome memory :=
  match plan d o with
  | Ok ws => if forallb (fun w => allocated d (fst w)) ws then Ok (fold_left store ws m) else UB
  | Err e => Err e
  | UB => UB
  end.
(** A history of calls; a call that fails leaves the settings alone *)
Fixpoint calls (d : shape) (os : list setter) (m : memory) : outcome memory :=
  match os with
  | [] => Ok m
  | o :: os => match set d o m with Ok m' => calls d os m' | Err _ => calls d os m | UB => UB end
  end.

(** The getters; a value never written is not one that may be used *)
Definition load (d : shape) (m : memory) (c : cell) : outcome R :=
  if allocated d c then match m c with Some x => Ok x | None => UB end else UB.
Definition gcheck (b : bool) (k : outcome R) : outcome R := if b then k else Err 1.
Definition get (d : shape) (m : memory) (c : cell) : outcome R :=
  let D j := in_range j (n_derivs d) in
  match c with
  | Delta j => load d m c                                                                   (* 218-226, element j *)
  | FTop j | FBot j => gcheck (D j) (load d m c)                                            (* 259-264, 298-303 *)
  | Lev i j => gcheck (is_thermal d) (gcheck (D j) (load d m c))                            (* 356-371, element i *)
  | Surf j => gcheck (is_thermal d) (gcheck (D j) (load d m c))                             (* 415-427 *)
  | Coef i j k l => gcheck (uses_coef d) (gcheck (in_range i (n_layers d)) (gcheck (D j) (gcheck (in_range k 6)
                      (gcheck (in_range i (n_coef_layer d i)) (load d m c)))))              (* 643-656: i_layer for i_coef at 653 *)
  | Omega i j | Ltau i j => gcheck (in_range i (n_layers d)) (gcheck (D j) (load d m c))    (* 737-743, 817-823 *)
  | Amp i j => gcheck (in_range i (n_kernels d)) (gcheck (D j) (load d m c))                (* 864-872 *)
  | Par i j k => gcheck (in_range i (n_kernels d)) (gcheck (D j) (gcheck (in_range k (n_params d i)) (load d m c)))   (* 970-984 *)
  end.
