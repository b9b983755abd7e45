(** The derivatives of the two-stream solver at directions other than its streams, with output at levels: rtm_two_stream, src/xrtm_two_stream.c
    1090-1111, 1122-1125, 1141-1180, 1207-1210, sfi (1626-1752) and sfi_layer (1291-1619), for one parameter and one direction [j].  The conventions of
    TwoDModel and ViewModel. *)
From Coq Require Import Reals Bool Arith List ZArith.
From Verif Require Import Base DeltaMSpec AddingModel EigModel TwoSpec TwoDSpec TwoModel TwoDModel ViewModel.
Open Scope R_scope.

(** i_out_level, I_0[j], I_0_l[.][j] and I_u_l[...][.][offset + j], [None] where nothing has been written *)
Record sweep_l := { z_out : Z; z_I0 : R; z_I0l : R; z_Iul : nat -> option R }.

Section View.
Variable lu : nat -> mat -> option (vec -> vec).
Variable d : deck.
Variable dl : deck_l.
Variable fl : varied.
Variable n_coef : nat.
Variables (solar : bool) (m : nat).
Variable g : ground.
Variable junk : nat -> wave_l.
Variable umu : vec.
Variables (ru ru0 : vec).
Variables (ru_l ru0_l : vec).          (* Rs_uq_l[.][.][0], Rs_u0_l *)
Variable once : bool.
Variable n_ulevels : nat.
Variable ulevels : nat -> nat.
Variable j : nat.

(** 1059-1066, 1090-1111: P_uq_pp_l, P_uq_mp_l, P_u0_mm_l, P_u0_pm_l *)
Definition view_phases_l (k : nat) : run (R * R * R * R) :=
  bind (root (1 - umu j * umu j)) (fun a1 => bind (root (1 - t_qx d * t_qx d)) (fun sqrt1 => bind (root (1 - t_mu0 d * t_mu0 d)) (fun sqrt2 =>
  let v1 := umu j * t_qx d in let v2 := a1 * sqrt1 in let v3 := umu j * t_mu0 d in let v4 := a1 * sqrt2 in
  bind (if (1 <? n_coef)%nat then Answer (l_coef dl k) else Undefined) (fun chi_l =>
  if (t_four d =? 0)%nat then let a6 := chi_l * v1 in let b6 := chi_l * v3 in Answer (a6, - a6, b6, - b6)
  else let a6 := chi_l * v2 in let b6 := chi_l * v4 in Answer (a6, a6, b6, b6))))).

(** sfi_layer: the value and the derivative.  Where the layer is not marked ptau_l, atau_l, btau_l and e1_l are not set, nor used. *)
Definition sfi_layer_l (F_0 : R) (down : bool) (k : nat) (w : wave) (wl : wave_l) (P_u0_pm P_uq_pp P_uq_mp P_u0_pm_l P_uq_pp_l P_uq_mp_l : R) (b b_l : vec)
    (atau btau ptau I_0 I_0_l : R) : run (R * R) :=
  let ltau := t_ltau d k in let as_0 := t_as0 d k in let omega := t_omega d k in
  let ltau_l := l_ltau dl k in let as_0_l := l_as0 dl k in let omega_l := l_omega dl k in
  let solfac := F_0 / (4 * PI) in
  let AA := (1 + (if (t_four d =? 0)%nat then 1 else 0)) / 4 * 1 in
  bind (over (- atau) (umu j)) (fun e => let e1 := exp e in
  (* 1395-1405 *)
  bind (if v_layer fl k then
    bind (over (ptau * ltau_l) ltau) (fun ptau_l => bind (over (atau * ltau_l) ltau) (fun atau_l => bind (over (btau * ltau_l) ltau) (fun btau_l =>
    bind (over (- atau_l) (umu j)) (fun r => Answer (ptau_l, atau_l, btau_l, r * e1)))))
  else Answer (0, 0, 0, 0)) (fun '(ptau_l, atau_l, btau_l, e1_l) =>
  (* 1408-1418 *)
  let I_u_l := I_0_l * e1 + when (v_layer fl k) (I_0 * e1_l) in
  let I_u := I_0 * e1 in
  (* 1424-1507 *)
  bind (if solar then
    let q1 := AA * w_Fp w in let q2 := AA * w_Fm w in
    let u1 := P_uq_pp * q1 + P_uq_mp * q2 in
    let a1 := t_btran d k * solfac in
    let u1 := if once then u1 + a1 * P_u0_pm else u1 in
    let Fu_0 := omega * u1 in
    let e2 := exp (- ptau * as_0) in
    bind (if down then over (e2 - e1) (1 - umu j * as_0) else over (e2 - t_atran d k * e1) (1 + umu j * as_0)) (fun Du_0 =>
    let u3 := P_uq_pp * (AA * wl_Fp wl) + P_uq_mp * (AA * wl_Fm wl) in
    let a2 := l_btran dl k * solfac in
    let Gu_0 := if once then omega * (a2 * P_u0_pm + u3) else omega * u3 in
    let u2 := P_uq_pp_l * q1 + P_uq_mp_l * q2 in
    let Gu_0 := Gu_0 + when (v_layer fl k) (omega_l * u1 + omega * (if once then a1 * P_u0_pm_l + u2 else u2)) in
    let e2_l := (- ptau_l * as_0 - ptau * as_0_l) * e2 in
    let I_u_l := I_u_l + when (v_beam fl k) (Gu_0 * Du_0) in
    bind (if v_layer fl k then
      bind (if down then over ((e2_l - e1_l) - Du_0 * (- umu j * as_0_l)) (1 - umu j * as_0)
            else over ((e2_l - l_atran dl k * e1 - t_atran d k * e1_l) - Du_0 * (umu j * as_0_l)) (1 + umu j * as_0)) (fun Eu_0 => Answer (I_u_l + Fu_0 * Eu_0))
    else Answer I_u_l) (fun I_u_l => Answer (I_u + Fu_0 * Du_0, I_u_l)))
  else Answer (I_u, I_u_l)) (fun '(I_u, I_u_l) =>
  (* 1512-1618 *)
  let qq1 := AA * w_Xp w in let qq2 := AA * w_Xm w in
  let Xu_p := P_uq_pp * qq1 - P_uq_mp * qq2 in
  let Xu_m := P_uq_pp * qq2 - P_uq_mp * qq1 in
  let nu := w_nu w in let nu_l := wl_nu wl in
  let e3 := exp (- nu * btau) in let e4 := exp (- nu * ltau) in let e5 := exp (- nu * atau) in
  let ii := (2 * k)%nat in
  let a1 := umu j * nu in
  bind (if down then over (e5 - e1) (1 - a1) else over (e3 - e4 * e1) (1 + a1)) (fun Du_p =>
  bind (if down then over (e3 - e4 * e1) (1 + a1) else over (e5 - e1) (1 - a1)) (fun Du_m =>
  let u1 := b ii * Xu_p * Du_p + b (ii + 1)%nat * Xu_m * Du_m in
  let u2 := omega * Xu_p * Du_p in
  let u3 := omega * Xu_m * Du_m in
  let qq3 := AA * wl_Xp wl in let qq4 := AA * wl_Xm wl in
  let Yu_p := P_uq_pp_l * qq1 - P_uq_mp_l * qq2 + P_uq_pp * qq3 - P_uq_mp * qq4 in
  let Yu_m := P_uq_pp_l * qq2 - P_uq_mp_l * qq1 + P_uq_pp * qq4 - P_uq_mp * qq3 in
  let e3_l := (- nu_l * btau - nu * btau_l) * e3 in
  let e4_l := (- nu_l * ltau - nu * ltau_l) * e4 in
  let e5_l := (- nu_l * atau - nu * atau_l) * e5 in
  let I_u_l := I_u_l + (b_l ii * u2 + b_l (ii + 1)%nat * u3) in
  bind (if v_layer fl k then
    let a1_l := umu j * nu_l in
    let thick := over ((e3_l - (e4_l * e1 + e4 * e1_l)) + (if down then Du_m else Du_p) * - a1_l) (1 + a1) in
    let thin := over ((e5_l - e1_l) + (if down then Du_p else Du_m) * a1_l) (1 - a1) in
    bind (if down then thin else thick) (fun Eu_p => bind (if down then thick else thin) (fun Eu_m =>
    Answer (I_u_l + omega_l * u1 + omega * (b ii * Yu_p * Du_p + b ii * Xu_p * Eu_p + b (ii + 1)%nat * Yu_m * Du_m + b (ii + 1)%nat * Xu_m * Eu_m))))
  else Answer I_u_l) (fun I_u_l =>
  Answer (I_u + omega * u1, I_u_l))))))).
(** 1183-1197, 1212-1226, 1737: the whole layer *)
Definition layer_call_l (down : bool) (ws : nat -> wave) (wl : nat -> wave_l) (b b_l : vec) (k : nat) (I_0 I_0_l : R) : run (R * R) :=
  if (m <? k)%nat then Undefined else
  bind (view_phases d n_coef umu j k) (fun '(P_uq_pp, P_uq_mp, P_u0_mm, P_u0_pm) =>
  bind (view_phases_l k) (fun '(P_uq_pp_l, P_uq_mp_l, P_u0_mm_l, P_u0_pm_l) =>
  let ltau := t_ltau d k in
  if down then sfi_layer_l (t_F0 d) down k (ws k) (wl k) P_u0_mm P_uq_mp P_uq_pp P_u0_mm_l P_uq_mp_l P_uq_pp_l b b_l ltau 0 ltau I_0 I_0_l
  else sfi_layer_l (t_F0 d) down k (ws k) (wl k) P_u0_pm P_uq_pp P_uq_mp P_u0_pm_l P_uq_pp_l P_uq_mp_l b b_l ltau 0 0 I_0 I_0_l)).

(** 1686-1692, 1743-1749 *)
Definition give_l (down : bool) (s : sweep_l) : sweep_l :=
  {| z_out := z_out s + inc down; z_I0 := z_I0 s; z_I0l := z_I0l s; z_Iul := write (z_out s) (Some (z_I0l s)) (z_Iul s) |}.
(** 1682 *)
Definition begin_l (down : bool) (s : sweep_l) : run sweep_l :=
  bind (read n_ulevels ulevels (z_out s)) (fun l => if ((if down then 0 else S m) =? l)%nat then Answer (give_l down s) else Answer s).
(** 1726-1750 *)
Definition pass_l (down : bool) (ws : nat -> wave) (wl : nat -> wave_l) (b b_l : vec) (i : nat) (s : sweep_l) : run sweep_l :=
  bind (layer_call_l down ws wl b b_l i (z_I0 s) (z_I0l s)) (fun '(x, x_l) =>
  let s := {| z_out := z_out s; z_I0 := x; z_I0l := x_l; z_Iul := z_Iul s |} in
  bind (read n_ulevels ulevels (z_out s)) (fun l => if ((if down then S i else i) =? l)%nat then Answer (give_l down s) else Answer s)).
(** 1699 *)
Fixpoint passes_l (c : nat) (down : bool) (ws : nat -> wave) (wl : nat -> wave_l) (b b_l : vec) (i : nat) (s : sweep_l) : run sweep_l :=
  match c with O => Answer s | S c => bind (pass_l down ws wl b b_l i s) (passes_l c down ws wl b b_l (if down then S i else i - 1)%nat) end.
(** sfi, 1661-1676 and the loop *)
Definition sfi_l (down : bool) (ws : nat -> wave) (wl : nat -> wave_l) (b b_l : vec) (I_0 I_0_l : R) : run (nat -> option R) :=
  let out := if down then 0%Z else (Z.of_nat n_ulevels - 1)%Z in
  bind (if down then read n_ulevels ulevels (Z.of_nat n_ulevels - 1)
        else bind (read n_ulevels ulevels 0) (fun l => if (S m <? l)%nat then Undefined else Answer (S m - l)%nat)) (fun c =>
  bind (begin_l down {| z_out := out; z_I0 := I_0; z_I0l := I_0_l; z_Iul := fun _ => None |}) (fun s =>
  bind (passes_l c down ws wl b b_l (if down then 0 else m)%nat s) (fun s => Answer (z_Iul s)))).
(** 1141-1180 *)
Definition from_below_l (ws : nat -> wave) (wl : nat -> wave_l) (x y : vec) : R :=
  match g with
  | None => 0
  | Some _ =>
    let i := m in let ii := (2 * S m - 2)%nat in
    let a1 := x ii * - w_Xm (ws i) * w_L (ws i) + x (ii + 1)%nat * - w_Xp (ws i) + w_Fm (ws i) * t_atran d i in
    let a1_l := (y ii * - w_Xm (ws i) + when (v_layer fl i) (x ii * - wl_Xm (wl i))) * w_L (ws i) + when (v_layer fl i) (x ii * - w_Xm (ws i) * wl_L (wl i)) +
      y (ii + 1)%nat * - w_Xp (ws i) + when (v_layer fl i) (x (ii + 1)%nat * - wl_Xp (wl i)) +
      when (solar && v_beam fl i) (wl_Fm (wl i) * t_atran d i + w_Fm (ws i) * l_atran dl i) in
    let solfac := t_F0 d * t_mu0 d / PI in
    let I_0_l := if once then (0 + when (solar && v_beam fl (S m)) (l_btran dl (S m) * ru0 j) + when (v_layer fl (S m)) (t_btran d (S m) * ru0_l j)) * solfac else 0 in
    I_0_l + a1_l * ru j + when (v_layer fl (S m)) (a1 * ru_l j)
  end.
(** The whole call *)
Definition two_stream_view_l (down : bool) : run (nat -> option R) :=
  run_l lu d dl fl n_coef solar m g junk (fun ws wl x y =>
    sfi_l down ws wl x y (if down then 0 else from_below d solar m g ru ru0 once j ws x) (if down then 0 else from_below_l ws wl x y)).
End View.
