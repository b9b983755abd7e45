(** Finite differences: src/xrtm_fd_interface.c, whose lines are cited below unless another file is named.  Over the reals:
    rounding is not modelled.

    The handle is reduced to the inputs that the finite differences change; the solver is any function of them.  That its
    answer depends on the inputs alone, and not on what earlier calls have left behind, is the subject of CacheProperties.
    Not modelled: the branches for solvers that use g (XRTM_SOLVERS_USE_G is empty in the default build). *)
From Coq Require Import Reals Bool Arith ZArith List.
From Verif Require Import Base.
Import ListNotations.
Open Scope R_scope.

(** What xrtm_create has fixed: n_layers, n_elem, n_coef, n_kernels, kernel_n_params of each kernel, the option
    source_thermal and misc_input.threshold_omega_singlarity *)
Record sizes := { nL : nat; nE : nat; nC : nat; nK : nat; kp : nat -> nat; thermal : bool; thr : R }.
(** F_iso_top, F_iso_bot, surface_b, levels_b, n_coef_layer, coef0, omega0, ltau0, kernel_ampfac, kernel_params *)
Record inputs := { top : R; bot : R; surf : R; lev : nat -> R; ncoef : nat -> nat; coef : nat -> nat -> nat -> R;
                   omega : nat -> R; ltau : nat -> R; amp : nat -> R; par : nat -> nat -> R }.
(** The perturbations of one derivative [j]: F_iso_top_p[j], ..., levels_b_p[.][j], coef_p[.][j][.][.], ... *)
Record step := { top_p : R; bot_p : R; surf_p : R; lev_p : nat -> R; coef_p : nat -> nat -> nat -> R;
                 omega_p : nat -> R; ltau_p : nat -> R; amp_p : nat -> R; par_p : nat -> nat -> R }.

(* ------------------------------------------------------------------------- *)
(** * Commands on the inputs: true is a return value of zero *)
Definition cmd := inputs -> inputs * bool.
(** if (f()) return -1; *)
Definition then_ (a b : cmd) : cmd := fun s => match a s with (s, true) => b s | r => r end.
(** for (i = 0; i < n; ++i) *)
Fixpoint each (n : nat) (f : nat -> cmd) : cmd :=
  match n with O => fun s => (s, true) | S k => then_ (each k f) (f k) end.
Definition when (b : bool) (a : cmd) : cmd := if b then a else fun s => (s, true).
Definition put {A} (i : nat) (x : A) (f : nat -> A) : nat -> A := fun k => if Nat.eqb k i then x else f k.

Definition lt0 (x : R) : bool := if Rlt_dec x 0 then true else false.
Definition gt1 (x : R) : bool := if Rlt_dec 1 x then true else false.
(** xrtm_interface.c:3365-3380, 3439-: xrtm_set_F_iso_top, xrtm_set_F_iso_bot *)
Definition set_top (x : R) : cmd := fun s => if lt0 x then (s, false) else
  ({| top := x; bot := bot s; surf := surf s; lev := lev s; ncoef := ncoef s; coef := coef s; omega := omega s; ltau := ltau s; amp := amp s; par := par s |}, true).
Definition set_bot (x : R) : cmd := fun s => if lt0 x then (s, false) else
  ({| top := top s; bot := x; surf := surf s; lev := lev s; ncoef := ncoef s; coef := coef s; omega := omega s; ltau := ltau s; amp := amp s; par := par s |}, true).
(** 3751-3771: xrtm_set_surface_b *)
Definition set_surf (x : R) : cmd := fun s => if lt0 x then (s, false) else
  ({| top := top s; bot := bot s; surf := x; lev := lev s; ncoef := ncoef s; coef := coef s; omega := omega s; ltau := ltau s; amp := amp s; par := par s |}, true).
(** 3634-3659: xrtm_set_levels_b *)
Definition set_lev (sz : sizes) (x : nat -> R) : cmd := fun s => if existsb (fun i => lt0 (x i)) (seq 0 (nL sz + 1)) then (s, false) else
  ({| top := top s; bot := bot s; surf := surf s; lev := fun i => if Nat.ltb i (nL sz + 1) then x i else lev s i;
      ncoef := ncoef s; coef := coef s; omega := omega s; ltau := ltau s; amp := amp s; par := par s |}, true).
(** 4021-4114: xrtm_set_coef_1; [eps]: DBL_EPSILON *)
Definition eps : R := / 2 ^ 52.
Definition set_coef (sz : sizes) (i n : nat) (x : nat -> nat -> R) : cmd := fun s =>
  if Nat.ltb (nC sz) n then (s, false) else
  let s' c := {| top := top s; bot := bot s; surf := surf s; lev := lev s; ncoef := put i n (ncoef s); coef := c;
                 omega := omega s; ltau := ltau s; amp := amp s; par := par s |} in
  if Nat.ltb 1 n && (if Rlt_dec eps (Rabs (1 - x 0%nat 0%nat)) then true else false) then (s' (coef s), false) else
  (s' (put i (fun k l => if Nat.ltb k (nE sz) && Nat.ltb l n then x k l else coef s i k l) (coef s)), true).
(** 4301-4341: xrtm_set_omega_1, with singularity_adjust_down of src/xrtm_utility.c:358-364 *)
Definition adjust_down (e x : R) : R := if Rlt_dec (1 - x) e then 1 - e else x.
Definition set_omega (sz : sizes) (i : nat) (x : R) : cmd := fun s => if lt0 x || gt1 x then (s, false) else
  ({| top := top s; bot := bot s; surf := surf s; lev := lev s; ncoef := ncoef s; coef := coef s;
      omega := put i (adjust_down (thr sz) x) (omega s); ltau := ltau s; amp := amp s; par := par s |}, true).
(** 4469-4504: xrtm_set_ltau_1 *)
Definition set_ltau (i : nat) (x : R) : cmd := fun s => if (if Rle_dec x 0 then true else false) then (s, false) else
  ({| top := top s; bot := bot s; surf := surf s; lev := lev s; ncoef := ncoef s; coef := coef s; omega := omega s;
      ltau := put i x (ltau s); amp := amp s; par := par s |}, true).
(** 4613-4633: xrtm_set_kernel_ampfac *)
Definition set_amp (i : nat) (x : R) : cmd := fun s => if lt0 x || gt1 x then (s, false) else
  ({| top := top s; bot := bot s; surf := surf s; lev := lev s; ncoef := ncoef s; coef := coef s; omega := omega s;
      ltau := ltau s; amp := put i x (amp s); par := par s |}, true).
(** 4650-4670: xrtm_set_kernel_params_1 *)
Definition set_par (i k : nat) (x : R) : cmd := fun s =>
  ({| top := top s; bot := bot s; surf := surf s; lev := lev s; ncoef := ncoef s; coef := coef s; omega := omega s;
      ltau := ltau s; amp := amp s; par := put i (put k x (par s i)) (par s) |}, true).

(** perturb_values, 991-1095; [p]: the perturbations of derivative [j] *)
Definition perturb (sz : sizes) (f : R) (p : step) : cmd :=
  then_ (when (thermal sz)
    (then_ (fun s => set_top (top s + f * top_p p) s)                                                  (* 1004 *)
    (then_ (fun s => set_bot (bot s + f * bot_p p) s)                                                  (* 1009 *)
    (then_ (fun s => set_lev sz (fun i => lev s i + f * lev_p p i) s)                                  (* 1014-1030 *)
           (fun s => set_surf (surf s + f * surf_p p) s)))))                                           (* 1033 *)
  (then_ (each (nL sz) (fun i s => set_coef sz i (ncoef s i) (fun k l => coef s i k l + f * coef_p p i k l) s))  (* 1048-1061 *)
  (then_ (each (nL sz) (fun i s => set_omega sz i (omega s i + f * omega_p p i) s))                    (* 1064-1069 *)
  (then_ (each (nL sz) (fun i s => set_ltau i (ltau s i + f * ltau_p p i) s))                          (* 1071-1076 *)
         (each (nK sz) (fun i =>                                                                       (* 1078-1092 *)
            then_ (fun s => set_amp i (amp s i + f * amp_p p i) s)
                  (each (kp sz i) (fun k s => set_par i k (par s i k + f * par_p p i k) s))))))).

(* ------------------------------------------------------------------------- *)
(** * The solution *)
Inductive fd_method := FORWARD | BACKWARD | CENTRAL.
(** The radiances: one number for each direction, level, stream, azimuth angle and Stokes component, [no] of them; the loops
    1182-1191, 1209-1218 and 1230-1239 run over all of them. *)
Definition field := nat -> R.
(** What the call leaves behind: the inputs, the return value (true: zero), I_p and I_m, and I_p_l and I_m_l by derivative;
    or undefined behaviour. *)
Inductive result := Done (s : inputs) (ok : bool) (I1 : field) (I_l : nat -> field) | Undefined.

Section Solution.
Variable sz : sizes.
Variable solve : inputs -> option field.    (* xrtm_solution for the radiances; None: it returns an error *)
Variable no : nat.
Variable radiance_only : bool.              (* solutions == XRTM_OUTPUT_RADIANCE: any other output is written through NULL *)
Variable delta : nat -> R.
Variable p : nat -> step.
Variable method : fd_method.

Definition over (f old : field) : field := fun o => if Nat.ltb o no then f o else old o.
(** 1164-1246, derivative [j]; what the inputs and the derivative are after it *)
Definition derivative (I1 : field) (j : nat) (s : inputs) (old : field) : option (inputs * field * bool) :=
  match method with
  | CENTRAL =>
      match perturb sz 1 (p j) s with                                                 (* 1199 *)
      | (s, false) => Some (s, old, false)
      | (s, true) =>
        if negb radiance_only then None else
        match solve s with                                                            (* 1204 *)
        | None => Some (s, old, false)
        | Some I2 =>
          let d := over (fun o => I2 o / delta j) old in                              (* 1213 *)
          match perturb sz (-2) (p j) s with                                          (* 1220 *)
          | (s, false) => Some (s, d, false)
          | (s, true) =>
            match solve s with                                                        (* 1225 *)
            | None => Some (s, d, false)
            | Some I2 =>
              let d := over (fun o => d o - I2 o / delta j) d in                      (* 1234 *)
              let (s, ok) := perturb sz 1 (p j) s in Some (s, d, ok)                  (* 1241 *)
            end
          end
        end
      end
  | _ =>
      let f := match method with FORWARD => 1 | _ => -1 end in                        (* 1166-1170 *)
      match perturb sz f (p j) s with                                                 (* 1172 *)
      | (s, false) => Some (s, old, false)
      | (s, true) =>
        if negb radiance_only then None else
        match solve s with                                                            (* 1177 *)
        | None => Some (s, old, false)
        | Some I2 => Some (s, over (fun o => (I2 o - I1 o) / delta j) old, true)       (* 1186 *)
        end
      end
  end.
Fixpoint derivatives (I1 : field) (nd : nat) (s : inputs) (old : nat -> field) : option (inputs * (nat -> field) * bool) :=
  match nd with
  | O => Some (s, old, true)
  | S j => match derivatives I1 j s old with
           | Some (s, l, true) =>
             match derivative I1 j s (l j) with
             | Some (s, d, ok) => Some (s, put j d l, ok)
             | None => None
             end
           | r => r
           end
  end.
(** xrtm_fd_solution, 1102-1260; [I0], [old]: what the output arrays held before *)
Definition fd_solution (nd : nat) (s : inputs) (I0 : field) (old : nat -> field) : result :=
  match solve s with                                                                  (* 1141 *)
  | None => Done s false I0 old
  | Some I1 => let I1 := over I1 I0 in
              match derivatives I1 nd s old with
              | Some (s, l, ok) => Done s ok I1 l
              | None => Undefined
              end
  end.
End Solution.
