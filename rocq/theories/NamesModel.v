(** Name tables: misc/gindex_name_value.c (whole file), the wrappers generated by
    misc/gindex_name_value.h, and the tables in src/xrtm_interface.c:34-287,
    src/xrtm_brdf.c:25-54, src/xrtm_fd_interface.c:21-34, src/xrtm_support.c:18-57.
    A read or write outside an array is the outcome [UB].  Messages on stderr are left out;
    an error is reported by the value the C code returns. *)
From Coq Require Import ZArith List Bool String Ascii.
From Verif Require Import Base.
Import ListNotations.
Open Scope Z_scope.

(** The contents of the two arrays and the N_VALUES the wrappers pass. *)
Record table := { t_names : list string; t_values : list Z; t_n : Z }.

(** a[i] *)
Definition aref {A} (l : list A) (i : Z) : outcome A :=
  if i <? 0 then UB else match nth_error l (Z.to_nat i) with Some x => Ok x | None => UB end.

(** (enum xrtm_..._mask) x: the enumerations fit in an unsigned int, which is what the compiler
    uses; int temp = x *)
Definition to_enum (x : Z) : Z := x mod 2^32.
Definition to_int (x : Z) : Z := (x + 2^31) mod 2^32 - 2^31.

(** gindex_name_value.c:18-31 *)
Fixpoint max_len (l : list string) (m : Z) : Z :=
  match l with
  | [] => m
  | s :: l => let k := Z.of_nat (String.length s) in max_len l (if m <? k then k else m)
  end.
Definition max_name_length (t : table) : outcome Z :=
  if Z.of_nat (List.length (t_names t)) <? t_n t then UB else Ok (max_len (firstn (Z.to_nat (t_n t)) (t_names t)) 0).

(** 38-48; [Ok None] is the NULL pointer *)
Definition index_to_name (t : table) (i : Z) : outcome (option string) :=
  if (i <? 0) || (t_n t <=? i) then Ok None
  else match aref (t_names t) i with Ok s => Ok (Some s) | Err c => Err c | UB => UB end.
(** 52-65 *)
Fixpoint scan {A B} (left : nat) (i : Z) (get : Z -> outcome A) (hit : Z -> A -> outcome (option B)) (miss : B) : outcome B :=
  match left with
  | O => Ok miss
  | S m => match get i with
           | Ok x => match hit i x with Ok (Some r) => Ok r | Ok None => scan m (i + 1) get hit miss | Err c => Err c | UB => UB end
           | Err c => Err c | UB => UB
           end
  end.
Definition name_to_index (t : table) (s : string) : outcome Z :=
  scan (Z.to_nat (t_n t)) 0 (aref (t_names t)) (fun i x => Ok (if String.eqb x s then Some i else None)) (-1).
(** 72-82 *)
Definition index_to_value (t : table) (i : Z) : outcome Z :=
  if (i <? 0) || (t_n t <=? i) then Ok (-1) else aref (t_values t) i.
(** 86-98 *)
Definition value_to_index (t : table) (v : Z) : outcome Z :=
  scan (Z.to_nat (t_n t)) 0 (aref (t_values t)) (fun i x => Ok (if v =? x then Some i else None)) (-1).
(** 125-137 *)
Definition name_to_value (t : table) (s : string) : outcome Z :=
  scan (Z.to_nat (t_n t)) 0 (aref (t_names t))
    (fun i x => if String.eqb s x then match aref (t_values t) i with Ok v => Ok (Some v) | Err c => Err c | UB => UB end else Ok None) (-1).
(** 141-153 *)
Definition value_to_name (t : table) (v : Z) : outcome (option string) :=
  scan (Z.to_nat (t_n t)) 0 (aref (t_values t))
    (fun i x => if v =? x then match aref (t_names t) i with Ok s => Ok (Some (Some s)) | Err c => Err c | UB => UB end else Ok None) None.

(** The generated wrappers that cast (gindex_name_value.h:41-58, 88-125). *)
Definition index_to_mask (t : table) (i : Z) : outcome Z :=
  match index_to_value t i with Ok v => Ok (to_enum v) | e => e end.
Definition name_to_mask (t : table) (s : string) : outcome Z :=
  match name_to_value t s with Ok v => Ok (to_enum v) | e => e end.

(** 102-117 and 209-225: the write comes before the test of the length.  [cap] is the number of
    elements the caller's array has; the C code is handed it as [length]. *)
Fixpoint mask_list {A} (mask : Z) (f : Z -> Z -> A) (l : list Z) (i : Z) (out : list A) (cap : Z) : outcome (list A) :=
  match l with
  | [] => Ok out
  | v :: l' =>
      let w := negb (Z.land mask v =? 0) in
      if w && (cap <=? Z.of_nat (List.length out)) then UB
      else let out := if w then out ++ [f i v] else out in
           if cap <=? Z.of_nat (List.length out) then Ok out else mask_list mask f l' (i + 1) out cap
  end.
Definition mask_to_index_list (t : table) (mask length : Z) : outcome (list Z) :=
  if Z.of_nat (List.length (t_values t)) <? t_n t then UB
  else mask_list mask (fun i _ => i) (firstn (Z.to_nat (t_n t)) (t_values t)) 0 [] length.
Definition mask_to_value_list (t : table) (mask length : Z) : outcome (list Z) :=
  if Z.of_nat (List.length (t_values t)) <? t_n t then UB
  else mask_list mask (fun _ v => v) (firstn (Z.to_nat (t_n t)) (t_values t)) 0 [] length.
(** 229-240 and the cast in the wrapper *)
Definition value_list_to_mask (vs : list Z) : Z :=
  to_enum (fold_left (fun m v => to_int (Z.lor m v)) vs 0).

(** Character buffers of [cap] bytes. *)
Definition buffer := Z -> ascii.
Definition put (cap : Z) (i : Z) (c : ascii) (b : buffer) : outcome buffer :=
  if (i <? 0) || (cap <=? i) then UB else Ok (fun k => if k =? i then c else b k).
Fixpoint put_string (cap : Z) (i : Z) (s : string) (b : buffer) : outcome buffer :=
  match s with
  | EmptyString => Ok b
  | String c s' => match put cap i c b with Ok b => put_string cap (i + 1) s' b | e => e end
  end.
(** snprintf(s + n, size, "%s", x): at most size - 1 characters and a null; size is a size_t, so
    a negative difference is a huge number.  The value is the length of x. *)
Definition snprintf (cap n size : Z) (x : string) (b : buffer) : outcome buffer :=
  let size := size mod 2^64 in
  if size =? 0 then Ok b
  else let k := Z.min (Z.of_nat (String.length x)) (size - 1) in
       match put_string cap n (substring 0 (Z.to_nat k) x) b with
       | Ok b => put cap (n + k) zero b
       | e => e
       end.
(** 157-178 *)
Fixpoint name_list (mask : Z) (l : list (Z * string)) (n : Z) (flag : bool) (length : Z) (b : buffer) : outcome (Z * buffer) :=
  match l with
  | [] => Ok (n, b)
  | (v, x) :: l' =>
      if negb (Z.land mask v =? 0) then
        match (if flag then match snprintf length n (length - n) "," b with Ok b => Ok (n + 1, b) | Err c => Err c | UB => UB end else Ok (n, b)) with
        | Ok (n, b) => match snprintf length n (length - n) x b with
                       | Ok b => name_list mask l' (n + Z.of_nat (String.length x)) true length b
                       | Err c => Err c | UB => UB
                       end
        | Err c => Err c | UB => UB
        end
      else name_list mask l' n flag length b
  end.
Definition mask_to_name_list (t : table) (mask length : Z) (b : buffer) : outcome buffer :=
  if (Z.of_nat (List.length (t_values t)) <? t_n t) || (Z.of_nat (List.length (t_names t)) <? t_n t) then UB
  else match name_list mask (firstn (Z.to_nat (t_n t)) (combine (t_values t) (t_names t))) 0 false length b with
       | Ok (n, b) => put length n zero b
       | Err c => Err c | UB => UB
       end.

(** strtok_r(s, ", \t", ...): the successive tokens of a string. *)
Definition delim (c : ascii) : bool := Ascii.eqb c "," || Ascii.eqb c " " || Ascii.eqb c "009".
Fixpoint strtok (s : string) (cur : string) : list string :=
  match s with
  | EmptyString => match cur with EmptyString => [] | _ => [cur] end
  | String c s' => if delim c then match cur with EmptyString => strtok s' EmptyString | _ => cur :: strtok s' EmptyString end
                   else strtok s' (cur ++ String c EmptyString)
  end.
(** 182-202: [temp] and [mask] are int *)
Fixpoint parse (t : table) (toks : list string) (mask : Z) : outcome Z :=
  match toks with
  | [] => Ok mask
  | x :: toks' => match name_to_value t x with
                  | Ok v => let temp := to_int v in if temp <? 0 then Ok (-1) else parse t toks' (to_int (Z.lor mask temp))
                  | e => e
                  end
  end.
Definition name_list_to_mask (t : table) (s : string) : outcome Z :=
  match parse t (strtok s EmptyString) 0 with Ok v => Ok (to_enum v) | e => e end.

(* ------------------------------------------------------------------------- *)
(** * The tables                                                              *)
Definition bits (n : nat) : list Z := map (fun k => 2 ^ Z.of_nat k) (seq 0 n).
(** src/xrtm_interface.c:34-111 with the enumeration in xrtm_interface.h:41-77 *)
Definition option_table : table := {|
  t_names := ["calc_derivs"; "reverse_derivs"; "delta_m"; "n_t_tms"; "four_conv_old"; "four_conv_new"; "no_azimuthal"; "output_at_levels";
    "output_at_taus"; "part_sol_classical"; "part_sol_greens"; "phase_scalar"; "phase_matrix_gc"; "phase_matrix_lc"; "psa"; "quad_norm_gaus_leg";
    "quad_doub_gaus_leg"; "quad_lobatto"; "save_leg_polys"; "save_phase_mats"; "save_local_r_t"; "save_layer_r_t_s"; "save_total_r_t_s"; "sfi";
    "source_solar"; "source_thermal"; "stack_reuse_adding"; "top_down_adding"; "bottom_up_adding"; "upwelling_output"; "downwelling_output"; "vector"]%string;
  t_values := bits 32; t_n := 32 |}.
(** src/xrtm_interface.c:114-150, xrtm_interface.h:80-100, without development solvers *)
Definition solver_table : table := {|
  t_names := ["doub_add"; "eig_add"; "eig_bvp"; "four_stream"; "mem_bvp"; "pade_add"; "single"; "six_stream"; "sos"; "two_os"; "two_stream"]%string;
  t_values := bits 11; t_n := 11 |}.
(** src/xrtm_interface.c:272-287, xrtm_interface.h:104-111 *)
Definition output_table : table := {|
  t_names := ["radiance"; "radiance_mean"; "flux"; "flux_divergence"]%string; t_values := bits 4; t_n := 4 |}.
(** src/xrtm_brdf.c:25-54, xrtm_brdf.h:22-36 *)
Definition kernel_table : table := {|
  t_names := ["lambertian"; "direct_and_diffuse"; "roujean"; "li_sparse"; "li_dense"; "ross_thin"; "ross_thick"; "hapke"; "rahman"; "cox_munk"; "user_defined"]%string;
  t_values := map Z.of_nat (seq 0 11); t_n := 11 |}.
(** src/xrtm_fd_interface.c:21-34, xrtm_fd_interface.h:21-27 *)
Definition fd_table : table := {|
  t_names := ["forward"; "backward"; "central"]%string; t_values := map Z.of_nat (seq 0 3); t_n := 3 |}.
(** src/xrtm_interface.c:153-268.  The comma between the last two strings is missing, so they
    are one string; the enumeration starts at 1 and its last member is not in the list of values. *)
Definition input_table : table := {|
  t_names := [""; "doub_d_tau"; "pade_params"; "sos_params"; "fourier_tol"; "lambda"; "planet_r"; "levels_z"; "out_levels"; "out_taus"; "out_thetas";
    "F_iso_top"; "F_iso_top_l"; "F_iso_bot"; "F_iso_bot_l"; "F_0"; "theta_0"; "phi_0"; "levels_b"; "levels_b_l"; "surface_b"; "surface_b_l"; "g"; "g_l";
    "coef"; "coef_l"; "omega"; "omega_l"; "ltau"; "ltau_l"; "kernel_ampfac"; "kernel_ampfac_l"; "kernel_params"; "kernel_params_l" ++ "kernel_funcs"]%string;
  t_values := map Z.of_nat (seq 1 33); t_n := 35 |}.
Definition INPUT_KERNEL_PARAMS_L : Z := 33.
Definition INPUT_KERNEL_FUNCS : Z := 34.
(** src/xrtm_support.c:18-38, xrtm_eig_util.h:26-36, with the two build options; the last value
    listed is the count itself *)
Definition eigen_table (fortran eispack : bool) : table :=
  let n := (if fortran then 1 else 0) + (if eispack then 1 else 0) + 1 in
  {| t_names := ["asymtx"; "eispack"; "lapack"]%string; t_values := map Z.of_nat (seq 0 (S (Z.to_nat n))); t_n := n |}.
(** the enumerators *)
Definition EIGEN_ASYMTX : Z := 0.
Definition EIGEN_EISPACK (fortran : bool) : Z := if fortran then 1 else 0.
Definition EIGEN_LAPACK (fortran eispack : bool) : Z := (if fortran then 1 else 0) + (if eispack then 1 else 0).
