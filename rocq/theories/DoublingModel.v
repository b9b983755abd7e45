(** Doubling: layer_double and layer_double_l of src/xrtm_doubling.c, and rtm_doub_rts with calc_doub_params of
    src/xrtm_doub_rts.c.  Over the reals: rounding is not modelled.  Matrices and the linear solver as in AddingModel.

    Not modelled: layer_double_s, layer_double_s_l (only with misc_input.use_symmetric_form, off by default), the branch
    DOUB_RTS_USE_PARTICULAR_SOLUTION (a constant 0 in the source) and the save tree. *)
From Coq Require Import Reals Bool Arith ZArith List.
From Verif Require Import Base DeltaMSpec AddingModel.
Open Scope R_scope.

(** The arrays that the doubling changes; for the derivatives, the entries [i] of R_l, T_l, ... *)
Record sheet := { hR : mat; hT : mat; Se_m : vec; Se_p : vec; Sl_m : vec; Sl_p : vec; L_m : vec; L_p : vec }.

Section Step.
Variable n : nat.
Variable solve : mat -> mat -> mat.
Notation "a ** b" := (mmul n a b) (at level 40, left associativity).
Notation "a +++ b" := (madd a b) (at level 50, left associativity).

(** dvec_copy of 107-110, 383-386 and, for the derivatives, 479-482, 627-630 *)
Definition start_L (thermal init : bool) (x : sheet) : sheet :=
  if thermal && init then
    {| hR := hR x; hT := hT x; Se_m := Se_m x; Se_p := Se_p x; Sl_m := Sl_m x; Sl_p := Sl_p x; L_m := Sl_m x; L_p := Sl_p x |}
  else x.

(** layer_double, xrtm_doubling.c:31-167 *)
Definition double (solar thermal init : bool) (atran lin_fac : R) (x : sheet) : sheet :=
  let x := start_L thermal init x in
  let R := hR x in let T := hT x in
  let A := solve (i_sub (R ** R)) T in
  {| hR := (A ** R) ** T +++ R;                                                   (* 157-162 *)
     hT := A ** T;                                                                 (* 165-166 *)
     Se_m := if solar then vadd (mv n A (vadd (vscale atran (mv n R (Se_p x))) (Se_m x))) (vscale atran (Se_m x)) else Se_m x;  (* 89-92, 98-99 *)
     Se_p := if solar then vadd (mv n A (vadd (mv n R (Se_m x)) (vscale atran (Se_p x)))) (Se_p x) else Se_p x;                 (* 83-86, 95 *)
     Sl_m := if thermal then                                                       (* 120-124, 130-132 *)
               vadd (vadd (mv n A (vadd (mv n R (vadd (Sl_p x) (vscale lin_fac (L_p x)))) (Sl_m x))) (Sl_m x)) (vscale lin_fac (L_m x))
             else Sl_m x;
     Sl_p := if thermal then                                                       (* 113-117, 127 *)
               vadd (mv n A (vadd (vadd (mv n R (Sl_m x)) (Sl_p x)) (vscale lin_fac (L_p x)))) (Sl_p x)
             else Sl_p x;
     L_m := if thermal then vadd (mv n A (vadd (mv n R (L_p x)) (L_m x))) (L_m x) else L_m x;  (* 141-143, 149 *)
     L_p := if thermal then vadd (mv n A (vadd (mv n R (L_m x)) (L_p x))) (L_p x) else L_p x   (* 136-138, 146 *) |}.

(** layer_double_l, 286-738: the values, 358-407 and 691-737 *)
Definition double_v (solar thermal init : bool) (atran lin_fac : R) (x : sheet) : sheet :=
  let x := start_L thermal init x in
  let R := hR x in let T := hT x in
  let A := solve (i_sub (R ** R)) T in
  let B := R ** T in
  let a := vadd (mv n R (Se_m x)) (vscale atran (Se_p x)) in
  let b := vadd (vscale atran (mv n R (Se_p x))) (Se_m x) in
  let e := vadd (vadd (mv n R (Sl_m x)) (Sl_p x)) (vscale lin_fac (L_p x)) in
  let f := vadd (mv n R (vadd (Sl_p x) (vscale lin_fac (L_p x)))) (Sl_m x) in
  let c := vadd (mv n R (L_m x)) (L_p x) in
  let d := vadd (mv n R (L_p x)) (L_m x) in
  {| hR := R +++ A ** B;
     hT := A ** T;
     Se_m := if solar then vadd (mv n A b) (vscale atran (Se_m x)) else Se_m x;
     Se_p := if solar then vadd (mv n A a) (Se_p x) else Se_p x;
     Sl_m := if thermal then vadd (vadd (mv n A f) (Sl_m x)) (vscale lin_fac (L_m x)) else Sl_m x;
     Sl_p := if thermal then vadd (mv n A e) (Sl_p x) else Sl_p x;
     L_m := if thermal then vadd (mv n A d) (L_m x) else L_m x;
     L_p := if thermal then vadd (mv n A c) (L_p x) else L_p x |}.

(** layer_double_l, one derivative of the loop 413-685; [x] the values before the call, [y] the derivatives;
    dl, db, dt: derivs_layers[i], derivs_beam[i], derivs_thermal[i] *)
Definition double_d (solar thermal init dl db dt : bool) (atran atran_l lin_fac lin_fac_l : R) (x y : sheet) : sheet :=
  let x := start_L thermal init x in
  let R := hR x in let T := hT x in
  let P := i_sub (R ** R) in
  let A := solve P T in
  let B := R ** T in
  let a := vadd (mv n R (Se_m x)) (vscale atran (Se_p x)) in
  let b := vadd (vscale atran (mv n R (Se_p x))) (Se_m x) in
  let e := vadd (vadd (mv n R (Sl_m x)) (Sl_p x)) (vscale lin_fac (L_p x)) in
  let f := vadd (mv n R (vadd (Sl_p x) (vscale lin_fac (L_p x)))) (Sl_m x) in
  let c := vadd (mv n R (L_m x)) (L_p x) in
  let d := vadd (mv n R (L_p x)) (L_m x) in
  let y := start_L (thermal && dt) init y in
  let R_l := hR y in let T_l := hT y in
  if dl then
    let A_l := solve P T_l +++ A ** solve P (R_l ** R +++ R ** R_l) in
    {| hR := R_l +++ A ** (R_l ** T +++ R ** T_l) +++ A_l ** B;                    (* 567-574 *)
       hT := A_l ** T +++ A ** T_l;                                                (* 577-581 *)
       Se_m := if solar && db then                                                 (* 448-462, 468-471 *)
                 vadd (vadd (vadd (mv n A_l b)
                   (mv n A (vadd (vadd (vscale atran (mv n R_l (Se_p x))) (mv n R (vadd (vscale atran (Se_p y)) (vscale atran_l (Se_p x))))) (Se_m y))))
                   (vscale atran (Se_m y))) (vscale atran_l (Se_m x))
               else Se_m y;
       Se_p := if solar && db then                                                 (* 434-445, 465 *)
                 vadd (vadd (mv n A_l a)
                   (mv n A (vadd (vadd (vadd (mv n R_l (Se_m x)) (mv n R (Se_m y))) (vscale atran (Se_p y))) (vscale atran_l (Se_p x)))))
                   (Se_p y)
               else Se_p y;
       Sl_m := if thermal && dt then                                               (* 500-517, 523-529 *)
                 vadd (vadd (vadd (vadd (mv n A_l f)
                   (mv n A (vadd (vadd (mv n R_l (vadd (Sl_p x) (vscale lin_fac (L_p x))))
                                       (mv n R (vadd (vadd (Sl_p y) (vscale lin_fac (L_p y))) (vscale lin_fac_l (L_p x))))) (Sl_m y))))
                   (Sl_m y)) (vscale lin_fac (L_m y))) (vscale lin_fac_l (L_m x))
               else Sl_m y;
       Sl_p := if thermal && dt then                                               (* 485-497, 520 *)
                 vadd (vadd (mv n A_l e)
                   (mv n A (vadd (vadd (vadd (vadd (mv n R_l (Sl_m x)) (mv n R (Sl_m y))) (Sl_p y)) (vscale lin_fac (L_p y))) (vscale lin_fac_l (L_p x)))))
                   (Sl_p y)
               else Sl_p y;
       L_m := if thermal && dt then                                                (* 544-552, 558 *)
                vadd (vadd (mv n A_l d) (mv n A (vadd (vadd (mv n R_l (L_p x)) (mv n R (L_p y))) (L_m y)))) (L_m y)
              else L_m y;
       L_p := if thermal && dt then                                                (* 533-541, 555 *)
                vadd (vadd (mv n A_l c) (mv n A (vadd (vadd (mv n R_l (L_m x)) (mv n R (L_m y))) (L_p y)))) (L_p y)
              else L_p y |}
  else
    {| hR := R_l; hT := T_l;
       Se_m := if solar && db then                                                 (* 603-610, 616-619 *)
                 vadd (vadd (mv n A (vadd (mv n R (vadd (vscale atran (Se_p y)) (vscale atran_l (Se_p x)))) (Se_m y)))
                   (vscale atran (Se_m y))) (vscale atran_l (Se_m x))
               else Se_m y;
       Se_p := if solar && db then                                                 (* 593-599, 613 *)
                 vadd (mv n A (vadd (vadd (mv n R (Se_m y)) (vscale atran (Se_p y))) (vscale atran_l (Se_p x)))) (Se_p y)
               else Se_p y;
       Sl_m := if thermal && dt then                                               (* 643-651, 657-663 *)
                 vadd (vadd (vadd (mv n A (vadd (mv n R (vadd (vadd (Sl_p y) (vscale lin_fac (L_p y))) (vscale lin_fac_l (L_p x)))) (Sl_m y)))
                   (Sl_m y)) (vscale lin_fac (L_m y))) (vscale lin_fac_l (L_m x))
               else Sl_m y;
       Sl_p := if thermal && dt then                                               (* 633-640, 654 *)
                 vadd (mv n A (vadd (vadd (vadd (mv n R (Sl_m y)) (Sl_p y)) (vscale lin_fac (L_p y))) (vscale lin_fac_l (L_p x)))) (Sl_p y)
               else Sl_p y;
       L_m := if thermal && dt then vadd (mv n A (vadd (mv n R (L_p y)) (L_m y))) (L_m y) else L_m y;      (* 673-676, 682 *)
       L_p := if thermal && dt then vadd (mv n A (vadd (mv n R (L_m y)) (L_p y))) (L_p y) else L_p y       (* 667-670, 679 *) |}.
End Step.

(* ------------------------------------------------------------------------- *)
(** * rtm_doub_rts *)

(** calc_doub_params, xrtm_doub_rts.c:24-42: the number of doublings; (int) of a positive number *)
Definition n_doub (ltau d_tau : R) : nat := Z.to_nat (Int_part (ln (ltau / Rmin ltau d_tau) / ln 2 + 1)).

(** dm_v_mul_D_A, dmat_mul_D_A2, xrtm_utility.c:1187-1286: the components from the third of each stream change sign *)
Definition sg (n_stokes k : nat) : R := if Nat.leb 2 (k mod n_stokes) then -1 else 1.
Definition mul_D (n_stokes : nat) (a : mat) : mat := fun i j => sg n_stokes i * a i j.
Definition mul_Dv (n_stokes : nat) (v : vec) : vec := fun i => sg n_stokes i * v i.
(** phase_matrix_symmetry_ldx3 with f = 1, xrtm_scatter.c:1297-1418, both cases *)
Definition symmetry (n_stokes : nat) (a : mat) : mat := fun i j => sg n_stokes i * sg n_stokes j * a i j.
(** dmat_scale; dm_v_dinv_mul *)
Definition mscale (t : R) (a : mat) : mat := fun i j => t * a i j.
Definition dinv (qx v : vec) : vec := fun i => v i / qx i.

(** The arguments that describe the layer; for the derivatives, the entries [i] of planck0_l, ... *)
Record column := { planck0 : R; planck1 : R; omega : R; ltau : R; as_0 : R; P_mm : vec; P_pm : vec; r_p : mat; t_p : mat }.

Section Rtm.
Variable n : nat.                          (* n_quad_v *)
Variable solve : mat -> mat -> mat.
Variable n_stokes : nat.
Variables (F_0 : R) (qx : vec).
Variable N : nat.                          (* n_doub *)
Variables solar thermal vector : bool.
Variable nd : nat.                         (* n_derivs *)
Variables dl db dt : nat -> bool.          (* derivs_layers, derivs_beam, derivs_thermal *)

(** xrtm_utility.c, flags_or *)
Definition flags_or (f : nat -> bool) : bool := existsb f (seq 0 nd).
(** 34: d_tau *)
Definition thickness (x : R) : R := x / 2 ^ N.

(** 138-144, 168-196, 199-221: the thin layer; [old]: what the arrays held before *)
Definition thin (g : column) (old : sheet) : sheet :=
  let d_tau := thickness (ltau g) in
  let R := mscale (- d_tau) (r_p g) in
  let d_tran := exp (- d_tau * as_0 g) in
  let b := F_0 / (4 * PI) * omega g * d_tran * d_tau in
  let S_m := vscale b (dinv qx (P_mm g)) in
  let v1 := dinv qx (fun _ => (1 - omega g) * planck0 g * d_tau) in
  {| hR := if vector then mul_D n_stokes R else R;
     hT := i_sub (mscale (- d_tau) (t_p g));
     Se_m := if solar then if vector then mul_Dv n_stokes S_m else S_m else Se_m old;
     Se_p := if solar then vscale b (dinv qx (P_pm g)) else Se_p old;
     Sl_m := if thermal then v1 else Sl_m old;
     Sl_p := if thermal then v1 else Sl_p old;
     L_m := L_m old; L_p := L_p old |}.
(** 169 *)
Definition tran (g : column) : R := exp (- thickness (ltau g) * as_0 g).
(** 200-203 *)
Definition lin_fac (g : column) : R := if Req_EM_T (planck0 g) 0 then 0 else (planck1 g / planck0 g - 1) / 2 ^ N.

(** 172-182 *)
Definition path_l (j : nat) (g g_l : column) : R :=
  if dl j then - thickness (ltau g_l) * as_0 g - thickness (ltau g) * as_0 g_l else - thickness (ltau g) * as_0 g_l.
(** 207-212 *)
Definition lin_fac_l (g g_l : column) : R :=
  if Req_EM_T (planck0 g) 0 then 0 else (planck1 g_l - planck1 g * planck0 g_l / planck0 g) / planck0 g / 2 ^ N.
(** 147-161, 223-276: derivative [j] of the thin layer *)
Definition thin_d (j : nat) (g g_l : column) (old : sheet) : sheet :=
  let d_tau := thickness (ltau g) in let d_tau_l := thickness (ltau g_l) in
  let R_l := madd (mscale (- d_tau) (r_p g_l)) (mscale (- d_tau_l) (r_p g)) in
  let T_l := madd (mscale d_tau (t_p g_l)) (mscale d_tau_l (t_p g)) in
  let a := F_0 / (4 * PI) in
  let d_tran := tran g in
  let b := a * omega g * d_tran * d_tau in
  let d_tran_l := path_l j g g_l * d_tran in
  let c := a * (omega g_l * d_tran * d_tau + omega g * d_tran_l * d_tau + omega g * d_tran * d_tau_l) in
  let source (P P_l : vec) := dinv qx (vadd (vscale c P) (vscale b P_l)) in
  let d := if dl j then - omega g_l * planck0 g * d_tau + (1 - omega g) * planck0 g_l * d_tau + (1 - omega g) * planck0 g * d_tau_l
           else (1 - omega g) * planck0 g_l * d_tau in
  let v1 := dinv qx (fun _ => d) in
  {| hR := if dl j then if vector then mul_D n_stokes R_l else R_l else hR old;
     hT := if dl j then T_l else hT old;
     Se_m := if solar && flags_or db then if dl j then if vector then mul_Dv n_stokes (source (P_mm g) (P_mm g_l)) else source (P_mm g) (P_mm g_l)
                           else if db j then zvec else Se_m old
             else Se_m old;
     Se_p := if solar && flags_or db then if dl j then source (P_pm g) (P_pm g_l) else if db j then zvec else Se_p old else Se_p old;
     Sl_m := if thermal && flags_or dt then if dl j || dt j then v1 else Sl_m old else Sl_m old;
     Sl_p := if thermal && flags_or dt then if dl j || dt j then v1 else Sl_p old else Sl_p old;
     L_m := L_m old; L_p := L_p old |}.

(** The variables of the loop 281-323 *)
Record state := { values : sheet; derivs : nat -> sheet; d_tran : R; d_tran_l : nat -> R; c_ : R; fac : R; fac_l : nat -> R }.
(** 284: layer_double or layer_double_l *)
Definition linearized : bool := flags_or dl || solar && flags_or db || thermal && flags_or dt.
(** 282-323, one pass; [path]: d_path_l *)
Definition pass (path : nat -> R) (i : nat) (s : state) : state :=
  let x := values s in
  let init := Nat.eqb i 0 in
  let t := d_tran s * d_tran s in
  let c := if flags_or db then c_ s * 2 else c_ s in
  {| values := if linearized then double_v n solve solar thermal init (d_tran s) (fac s) x
               else double n solve solar thermal init (d_tran s) (fac s) x;
     derivs := if linearized then
                 fun j => if Nat.ltb j nd then
                            double_d n solve solar thermal init (dl j) (db j) (dt j) (d_tran s) (d_tran_l s j) (fac s) (fac_l s j) x (derivs s j)
                          else derivs s j
               else derivs s;
     d_tran := if solar then t else d_tran s;
     c_ := if solar then c else c_ s;
     d_tran_l := if solar && flags_or db then fun j => if Nat.ltb j nd && db j then path j * t * c else d_tran_l s j else d_tran_l s;
     fac := if thermal then fac s * 2 else fac s;
     fac_l := if thermal && flags_or dt then fun j => if Nat.ltb j nd && dt j then fac_l s j * 2 else fac_l s j else fac_l s |}.
Fixpoint passes (path : nat -> R) (k : nat) (s : state) : state :=
  match k with O => s | S k => pass path k (passes path k s) end.

(** 329-348: the operators and sources for light from above; the solar and the thermal source *)
Definition solar_layer (x : sheet) : layer :=
  let R := mul_D n_stokes (hR x) in
  {| Rm := symmetry n_stokes R; Tm := symmetry n_stokes (hT x); Sm := mul_Dv n_stokes (Se_m x); Rp := R; Tp := hT x; Sp := Se_p x |}.
Definition thermal_layer (x : sheet) : layer :=
  let R := mul_D n_stokes (hR x) in
  {| Rm := symmetry n_stokes R; Tm := symmetry n_stokes (hT x); Sm := Sl_m x; Rp := R; Tp := hT x; Sp := Sl_p x |}.

(** rtm_doub_rts, 24-350.  With [nd] or the flags zero the derivative arrays are never allocated; they are then left as
    they are.  Uninitialised work arrays appear as the entries of [old], [old_l] and [junk]. *)
Definition doub_rts (g : column) (g_l : nat -> column) (old : sheet) (old_l : nat -> sheet) (junk : nat -> R) : sheet * (nat -> sheet) :=
  let path := fun j => path_l j g (g_l j) in
  let s := passes path N
    {| values := thin g old; derivs := fun j => thin_d j g (g_l j) (old_l j);
       d_tran := tran g; c_ := 1;
       d_tran_l := fun j => if flags_or db && (dl j || db j) then path j * tran g else junk j;
       fac := lin_fac g; fac_l := fun j => if dt j then lin_fac_l g (g_l j) else junk j |} in
  (values s, derivs s).
End Rtm.
