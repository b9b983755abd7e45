(** The derivatives of the two-stream solver: the loop over the derivatives in rtm_two_stream, src/xrtm_two_stream.c 371-447, 714-862, 891-910, 936-954,
    994-1021, for one parameter (the loop index j; the parameters do not depend on each other).  The conventions of TwoModel. *)
From Coq Require Import Reals Bool Arith List ZArith.
From Verif Require Import Base DeltaMSpec AddingModel EigModel TwoSpec TwoDSpec TwoModel.
Import ListNotations.
Open Scope R_scope.

(** nu_l, X_p_l, X_m_l, Lambda_l, F_p_l, F_m_l.  The first four are not written where the layer is not marked: [junk] is what is found there. *)
Record wave_l := { wl_nu : R; wl_Xp : R; wl_Xm : R; wl_L : R; wl_Fp : R; wl_Fm : R }.

Section Derivatives.
Variable lu : nat -> mat -> option (vec -> vec).
Variable d : deck.
Variable dl : deck_l.
Variable fl : varied.
Variable n_coef : nat.
Variables (solar : bool) (m : nat).
Variable g : ground.
Variable junk : nat -> wave_l.

(** The quantities that the layer's values leave behind (alpha, beta, a10 to a15 and the phase functions with a6), 306-370, and the derivatives,
    371-447.  [w]: the values.  Without a beam a5 and a10 to a15 are not initialised, and read where the layer is marked. *)
Definition layer_l (k : nat) (w : wave) : run wave_l :=
  bind (coefficient d n_coef k) (fun chi =>
  bind (phases d chi) (fun '(P_qq_pp, P_qq_mp, P_q0_mm, P_q0_pm, a6) =>
  let qx := t_qx d in let mu_0 := t_mu0 d in
  let a1 := qx * qx in let a2 := 1 - a1 in let a3 := qx * mu_0 in let a4 := sqrt (1 - qx * qx) * sqrt (1 - mu_0 * mu_0) in
  let a5 := t_F0 d / (4 * PI) / qx in
  let alpha := -1 / qx + a6 * t_omega d k * P_qq_pp in
  let beta := - a6 * t_omega d k * P_qq_mp in
  let a10 := a5 * t_omega d k * t_btran d k in
  let a11 := a10 * P_q0_pm in let a12 := a10 * P_q0_mm in
  let a13 := t_as0 d k + alpha in let a14 := t_as0 d k - alpha in
  let a15 := a13 * a14 + beta * beta in
  let a9 := w_nu w - (alpha + beta) in
  let a16 := 2 * w_nu w in
  if v_layer fl k then
    let '(P_qq_pp_l, P_qq_mp_l) :=
      if (t_four d =? 0)%nat then let a6_l := l_coef dl k * a1 in (a6_l, - a6_l) else let a6_l := l_coef dl k * a2 in (a6_l, a6_l) in
    let alpha_l := a6 * (l_omega dl k * P_qq_pp + t_omega d k * P_qq_pp_l) in
    let beta_l := - a6 * (l_omega dl k * P_qq_mp + t_omega d k * P_qq_mp_l) in
    let a7_l := 2 * alpha_l * alpha in let a8_l := 2 * beta_l * beta in
    bind (over (a7_l - a8_l) a16) (fun nu_l =>
    let a9_l := alpha_l + beta_l in
    bind (over ((nu_l + a9_l) - w_Xp w * (nu_l - a9_l)) a9) (fun X_p_l =>
    let Lambda_l := (- nu_l * t_ltau d k - w_nu w * l_ltau dl k) * w_L w in
    let '(P_q0_mm_l, P_q0_pm_l) :=
      if (t_four d =? 0)%nat then let a6_l := l_coef dl k * a3 in (a6_l, - a6_l) else let a6_l := l_coef dl k * a4 in (a6_l, a6_l) in
    if solar then
      let a10_l := a5 * (l_omega dl k * t_btran d k + t_omega d k * l_btran dl k) in
      let a11_l := a10_l * P_q0_pm + a10 * P_q0_pm_l in
      let a12_l := a10_l * P_q0_mm + a10 * P_q0_mm_l in
      let a13_l := l_as0 dl k + alpha_l in let a14_l := l_as0 dl k - alpha_l in
      let a15_l := a13_l * a14 + a13 * a14_l + a8_l in
      bind (over ((a11_l * a13 + a11 * a13_l + beta_l * a12 + beta * a12_l) - w_Fp w * a15_l) a15) (fun F_p_l =>
      bind (over ((a12_l * - a14 + a12 * - a14_l + beta_l * a11 + beta * a11_l) - w_Fm w * a15_l) a15) (fun F_m_l =>
      Answer {| wl_nu := nu_l; wl_Xp := X_p_l; wl_Xm := 0; wl_L := Lambda_l; wl_Fp := 0 + F_p_l; wl_Fm := 0 + F_m_l |}))
    else Undefined))
  else if solar && v_beam fl k then
    let a10_l := a5 * t_omega d k * l_btran dl k in
    let a11_l := a10_l * P_q0_pm in let a12_l := a10_l * P_q0_mm in
    let a13_l := l_as0 dl k in let a14_l := l_as0 dl k in
    let a15_l := a13_l * a14 + a13 * a14_l in
    bind (over ((a11_l * a13 + a11 * a13_l + beta * a12_l) - w_Fp w * a15_l) a15) (fun F_p_l =>
    bind (over ((a12_l * - a14 + a12 * - a14_l + beta * a11_l) - w_Fm w * a15_l) a15) (fun F_m_l =>
    Answer {| wl_nu := wl_nu (junk k); wl_Xp := wl_Xp (junk k); wl_Xm := wl_Xm (junk k); wl_L := wl_L (junk k); wl_Fp := 0 + F_p_l; wl_Fm := 0 + F_m_l |}))
  else Answer {| wl_nu := wl_nu (junk k); wl_Xp := wl_Xp (junk k); wl_Xm := wl_Xm (junk k); wl_L := wl_L (junk k); wl_Fp := 0; wl_Fm := 0 |})).
Fixpoint layers_l (ws : nat -> wave) (k : nat) : run (nat -> wave_l) :=
  match k with
  | O => Answer junk
  | S k => bind (layers_l ws k) (fun wls => bind (layer_l k (ws k)) (fun w => Answer (fun i => if (i =? k)%nat then w else wls i)))
  end.

Section Waves.
Variable ws : nat -> wave.
Variable wl : nat -> wave_l.
Variable x : vec.
Notation Xp k := (w_Xp (ws k)).
Notation Xm k := (w_Xm (ws k)).
Notation La k := (w_L (ws k)).
Notation Fp k := (w_Fp (ws k)).
Notation Fm k := (w_Fm (ws k)).
Notation Xpl k := (wl_Xp (wl k)).
Notation Xml k := (wl_Xm (wl k)).
Notation Lal k := (wl_L (wl k)).
Notation Fpl k := (wl_Fp (wl k)).
Notation Fml k := (wl_Fm (wl k)).
(** 715-721 *)
Definition first_l : R :=
  (0 + when solar (when (v_beam fl 0%nat) (- Fml 0%nat))) +
  when (v_layer fl 0%nat) (Xml 0%nat * x 0%nat + (Xpl 0%nat * La 0%nat + Xp 0%nat * Lal 0%nat) * x 1%nat).
(** 731-752, i from 1, kk = 2 (i - 1) *)
Definition upper_l (i : nat) : R := let kk := (2 * (i - 1))%nat in let h := (i - 1)%nat in
  0 + when solar (when (v_beam fl h) (- Fpl h * t_atran d h - Fp h * l_atran dl h)) + when solar (when (v_beam fl i) (Fpl i)) +
  when (v_layer fl h) (- (Xpl h * La h + Xp h * Lal h) * x kk - Xml h * x (kk + 1)%nat) +
  when (v_layer fl i) (Xpl i * x (kk + 2)%nat + (Xml i * La i + Xm i * Lal i) * x (kk + 3)%nat).
Definition lower_l (i : nat) : R := let kk := (2 * (i - 1))%nat in let h := (i - 1)%nat in
  0 + when solar (when (v_beam fl h) (- Fml h * t_atran d h - Fm h * l_atran dl h)) + when solar (when (v_beam fl i) (Fml i)) +
  when (v_layer fl h) ((Xml h * La h + Xm h * Lal h) * x kk + Xpl h * x (kk + 1)%nat) +
  when (v_layer fl i) (- Xml i * x (kk + 2)%nat - (Xpl i * La i + Xp i * Lal i) * x (kk + 3)%nat).
(** 758-828; a2 is what the values left behind *)
Definition last_l : R :=
  let i := m in let q := (2 * S m - 1)%nat in
  match g with
  | None =>
      let a2 := Fp m in
      let a1_l := 0 in let a2_l := 0 + when (v_beam fl i) (Fpl i) in
      let b := 0 + when solar (a1_l - a2_l * t_atran d i - a2 * l_atran dl i) in
      b + when (v_layer fl i) (- (Xpl i * La i + V_p m g ws * Lal i) * x (q - 1)%nat - Xml i * x q)
  | Some (r, r0) =>
      let a2 := Fp m - r * Fm m in
      let solfac := t_F0 d * t_mu0 d / PI in
      let a1_l := (0 + when (v_beam fl (S m)) (l_btran dl (S m) * r0) + when (v_layer fl (S m)) (t_btran d (S m) * l_rq0 dl)) * solfac in
      let a2_l := 0 + when (v_beam fl i) (Fpl i - r * Fml i) + when (v_layer fl (S m)) (- l_rqq dl * Fm i) in
      let b := 0 + when solar (a1_l - a2_l * t_atran d i - a2 * l_atran dl i) in
      let a1_l := when (v_layer fl i) (V_p m g ws * Lal i) in
      let V_p_l := 0 + when (v_layer fl i) (Xpl i - r * - Xml i) + when (v_layer fl (S m)) (- l_rqq dl * - Xm i) in
      let V_m_l := 0 + when (v_layer fl i) (Xml i - r * - Xpl i) + when (v_layer fl (S m)) (- l_rqq dl * - Xp i) in
      b + (- (V_p_l * La i + a1_l) * x (q - 1)%nat - V_m_l * x q)
  end.
(** b_l: every index is below 2 * n_layers and is set once *)
Definition rhs_l : vec :=
  let b := vset 0 first_l zvec in
  let b := fold_left (fun b i => let ii := (2 * i - 1)%nat in vset (ii + 1) (lower_l i) (vset ii (upper_l i) b)) (seq 1 m) b in
  vset (2 * S m - 1) last_l b.

(** 891-910 and 936-954; [y]: x_l *)
Definition at_level_l (y : vec) (ii : nat) : run (R * R) :=
  if (S m <? ii)%nat then Undefined
  else if negb (ii =? S m)%nat then
    let iii := (ii * 2 * 1)%nat in
    let a1 := x iii in let a2 := x (iii + 1)%nat * La ii in
    let a1_l := y iii in let a2_l := y (iii + 1)%nat * La ii + when (v_layer fl ii) (x (iii + 1)%nat * Lal ii) in
    Answer (a1_l * Xp ii + a2_l * Xm ii + when (v_layer fl ii) (a1 * Xpl ii + a2 * Xml ii) + when (v_beam fl ii) (Fpl ii),
            a1_l * - Xm ii + a2_l * - Xp ii + when (v_layer fl ii) (a1 * - Xml ii + a2 * - Xpl ii) + when (v_beam fl ii) (Fml ii))
  else
    let ii := m in let iii := (ii * 2 * 1)%nat in
    let a1 := x iii * La ii in let a2 := x (iii + 1)%nat in
    let a1_l := y iii * La ii + when (v_layer fl ii) (x iii * Lal ii) in let a2_l := y (iii + 1)%nat in
    Answer (a1_l * Xp ii + a2_l * Xm ii + when (v_layer fl ii) (a1 * Xpl ii + a2 * Xml ii) + when (v_beam fl ii) (Fpl ii * t_atran d ii + Fp ii * l_atran dl ii),
            a1_l * - Xm ii + a2_l * - Xp ii + when (v_layer fl ii) (a1 * - Xml ii + a2 * - Xpl ii) + when (v_beam fl ii) (Fml ii * t_atran d ii + Fm ii * l_atran dl ii)).
(** 994-1021 *)
Definition at_depth_l (y : vec) (ii : nat) (t : R) : run (R * R) :=
  if (m <? ii)%nat then Undefined
  else
    let iii := (ii * 2 * 1)%nat in
    let nu := w_nu (ws ii) in let nu_l := wl_nu (wl ii) in let ltau := t_ltau d ii in
    let uatran := exp (- t * t_as0 d ii) in
    let a1 := x iii * exp (- nu * (t - 0)) in
    let a2 := x (iii + 1)%nat * exp (- nu * (ltau - t)) in
    bind (over (t * l_ltau dl ii) ltau) (fun utau_l =>
    let uatran_l := (- utau_l * t_as0 d ii - t * l_as0 dl ii) * uatran in
    let a1_l := y iii * exp (- nu * (t - 0)) + when (v_layer fl ii) (x iii * (- nu_l * (t - 0) - nu * (utau_l - 0)) * exp (- nu * (t - 0))) in
    let a2_l := y (iii + 1)%nat * exp (- nu * (ltau - t)) + when (v_layer fl ii) (x (iii + 1)%nat * (- nu_l * (ltau - t) - nu * (l_ltau dl ii - utau_l)) * exp (- nu * (ltau - t))) in
    Answer (a1_l * Xp ii + a2_l * Xm ii + when (v_layer fl ii) (a1 * Xpl ii + a2 * Xml ii) + when (v_beam fl ii) (Fpl ii * uatran + Fp ii * uatran_l),
            a1_l * - Xm ii + a2_l * - Xp ii + when (v_layer fl ii) (a1 * - Xml ii + a2 * - Xpl ii) + when (v_beam fl ii) (Fml ii * uatran + Fm ii * uatran_l))).
End Waves.

(** 836-847: the factored matrix is used again. *)
Definition run_l {A} (out : (nat -> wave) -> (nat -> wave_l) -> vec -> vec -> run A) : run A :=
  bind (layers d n_coef solar (S m)) (fun ws =>
  bind (layers_l ws (S m)) (fun wl =>
  bind (matrix m g ws) (fun a =>
  match lu (order m) a with
  | Some f => let x := f (rhs d solar m g ws) in out ws wl x (f (rhs_l ws wl x))
  | None => Exits
  end))).
Definition two_stream_level_l (ii : nat) : run (R * R) := run_l (fun ws wl x y => at_level_l ws wl x y ii).
Definition two_stream_depth_l (ii : nat) (t : R) : run (R * R) := run_l (fun ws wl x y => at_depth_l ws wl x y ii t).
End Derivatives.
