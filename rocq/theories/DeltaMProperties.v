(** C29: delta-M scaling is consistent, its derivatives and its adjoint are exact. *)
From Coq Require Import Reals Bool Arith Lia Lra.
From Verif Require Import DerivsModel DeltaMModel DeltaMSpec DeltaMProofs.
Open Scope R_scope.

(** The update of the values, with or without derivatives. *)
Definition scaled (calc : bool) := if calc then update_values_d else update_values.
(** The values are to be computed: the setters were called since the last update. *)
Definition values_due (fl : dflags) : Prop := f_coef fl = true /\ f_omega fl = true /\ f_ltau fl = true.

Lemma peak_pos : forall j, 0 < 2 * INR j + 1.
Proof. intros j. pose proof (pos_INR j). lra. Qed.
Lemma truncated_is : forall c u layer f, truncated c u layer f -> f = delta_m_f c u layer.
Proof.
  intros c u layer f. unfold truncated, delta_m_f, two_j_1, peak. destruct (c_use_g c); [auto|].
  destruct (c_ncoef_layer c layer <=? c_ncoef2 c)%nat; [auto|]. cbn [Nat.ltb Nat.leb]. intros <-.
  field. pose proof (peak_pos (c_ncoef2 c)). lra.
Qed.
Lemma values_same : forall calc c fl u layer old,
  p_omega (scaled calc c fl u layer old) = p_omega (update_values c fl u layer old) /\
  p_ltau (scaled calc c fl u layer old) = p_ltau (update_values c fl u layer old).
Proof. intros [] c fl u layer old; split; reflexivity. Qed.

(** The forward peak takes its share of the scattering and no absorption. *)
Theorem C29_depths : forall calc c fl u layer old f,
  values_due fl -> truncated c u layer f -> 1 - p_omega (u_val u layer) * f <> 0 ->
  let x := u_val u layer in let y := scaled calc c fl u layer old in
  scattering y = (1 - f) * scattering x /\ absorption y = absorption x.
Proof.
  intros calc c fl u layer old f (FC & FO & FT) TR NZ x y. rewrite (truncated_is _ _ _ _ TR) in *.
  unfold scattering, absorption, y. destruct (values_same calc c fl u layer old) as [-> ->].
  unfold update_values. cbv zeta. rewrite FO, FT. cbn [p_omega p_ltau]. fold x. split; [apply scattering_eq|apply absorption_eq]; exact NZ.
Qed.

Lemma coef_now : forall calc c fl u layer old, c_use_g c = false -> c_use_coef c = true -> f_coef fl = true ->
  p_coef (scaled calc c fl u layer old) =
  delta_m_coef (c_ncoef2 c) (c_allsix c) (c_gc c) (delta_m_f c u layer) (p_coef (u_val u layer)) (p_coef old).
Proof. intros [] c fl u layer old UG UC FC; unfold scaled, update_values, update_values_d; cbv zeta; rewrite UG, UC, FC; reflexivity. Qed.

(** The scaled phase function and the forward peak make up the phase function given, through the
    first coefficient the solver leaves out. *)
Theorem C29_phase_function : forall calc c fl u layer old f,
  values_due fl -> c_use_g c = false -> c_use_coef c = true -> (c_allsix c = false \/ c_gc c = true) ->
  truncated c u layer f -> f <> 1 ->
  recombines c f (u_val u layer) (scaled calc c fl u layer old) /\
  ((c_ncoef2 c < c_ncoef_layer c layer)%nat -> p_coef (u_val u layer) 0 (c_ncoef2 c) = f * peak 0 (c_ncoef2 c)).
Proof.
  intros calc c fl u layer old f (FC & FO & FT) UG UC K TR N1. split.
  - intros r j HR HJ. rewrite (coef_now calc c fl u layer old UG UC FC), coef_closed.
    rewrite (truncated_is _ _ _ _ TR) in N1 |- *. set (g := delta_m_f c u layer) in *.
    unfold inrows. unfold rows in HR. destruct (Nat.ltb_spec j (c_ncoef2 c)); [|lia].
    destruct (Nat.ltb_spec r (if c_allsix c then 6 else 1)); [|lia]. cbn [andb]. unfold peak, two_j_1.
    assert (1 - g <> 0) by lra. destruct (Nat.ltb_spec r 4).
    + field. assumption.
    + destruct K as [K|K]; rewrite K in *; [lia|]. field. assumption.
  - intros L. unfold truncated in TR. rewrite UG in TR. destruct (Nat.leb_spec (c_ncoef_layer c layer) (c_ncoef2 c)); [lia|]. auto.
Qed.
Theorem C29_asymmetry : forall calc c fl u layer old f,
  c_use_g c = true -> f_g fl = true -> truncated c u layer f -> f <> 1 ->
  let g := p_g (u_val u layer) in let g' := p_g (scaled calc c fl u layer old) in
  g = f + (1 - f) * g' /\ g' * (1 + g) = g.
Proof.
  intros calc c fl u layer old f UG FG TR N1 g g'.
  assert (g' = delta_m_g f g) as ->.
  { rewrite (truncated_is _ _ _ _ TR). unfold g', scaled, update_values, update_values_d. destruct calc; cbv zeta; rewrite UG, FG; reflexivity. }
  unfold truncated in TR. rewrite UG in TR. fold g in TR. unfold delta_m_g. cbv zeta. split; [field; lra|].
  rewrite TR. field. intros E. apply N1. lra.
Qed.
(** A layer whose expansion fits is left alone. *)
Theorem C29_nothing_truncated : forall calc c fl u layer old,
  values_due fl -> c_use_g c = false -> c_use_coef c = true -> (c_ncoef_layer c layer <= c_ncoef2 c)%nat ->
  let x := u_val u layer in let y := scaled calc c fl u layer old in
  p_omega y = p_omega x /\ p_ltau y = p_ltau x /\
  (forall r j, (r < rows c)%nat -> (j < c_ncoef2 c)%nat -> p_coef y r j = p_coef x r j).
Proof.
  intros calc c fl u layer old (FC & FO & FT) UG UC L x y.
  assert (F : delta_m_f c u layer = 0).
  { unfold delta_m_f. rewrite UG. destruct (Nat.leb_spec (c_ncoef_layer c layer) (c_ncoef2 c)); [reflexivity|lia]. }
  unfold y. destruct (values_same calc c fl u layer old) as [-> ->]. refine (conj _ (conj _ _)).
  - unfold update_values. cbv zeta. rewrite FO, F. cbn [p_omega]. unfold delta_m_omega. fold x. field.
  - unfold update_values. cbv zeta. rewrite FT, F. cbn [p_ltau]. unfold delta_m_ltau. fold x. ring.
  - intros r j HR HJ. rewrite (coef_now calc c fl u layer old UG UC FC), coef_closed, F. fold x.
    unfold inrows. unfold rows in HR. destruct (Nat.ltb_spec j (c_ncoef2 c)); [|lia].
    destruct (Nat.ltb_spec r (if c_allsix c then 6 else 1)); [|lia]. cbn [andb].
    destruct (r <? 4)%nat; [field|destruct (c_gc c); [field|reflexivity]].
Qed.
(** The scaled layer is thinner and darker, never unphysical. *)
Theorem C29_ranges : forall calc c fl u layer old f,
  values_due fl -> truncated c u layer f -> 0 <= f < 1 -> 0 <= p_omega (u_val u layer) <= 1 -> 0 <= p_ltau (u_val u layer) ->
  0 <= p_omega (scaled calc c fl u layer old) <= p_omega (u_val u layer) /\
  0 <= p_ltau (scaled calc c fl u layer old) <= p_ltau (u_val u layer).
Proof.
  intros calc c fl u layer old f (FC & FO & FT) TR F W T. rewrite (truncated_is _ _ _ _ TR) in *.
  destruct (values_same calc c fl u layer old) as [-> ->]. unfold update_values. cbv zeta. rewrite FO, FT. cbn [p_omega p_ltau].
  split; [apply omega_range; assumption|apply ltau_range; assumption].
Qed.
(** An output level inside a layer keeps its place in proportion. *)
Theorem C29_levels : forall calc c fl u layer old depth,
  values_due fl ->
  let d := p_ltau (u_val u layer) in let d' := p_ltau (scaled calc c fl u layer old) in
  scaled_level c u layer depth * d = depth * d' /\
  (forall f, truncated c u layer f -> 0 <= f < 1 -> 0 <= p_omega (u_val u layer) <= 1 -> 0 <= depth <= d ->
     0 <= scaled_level c u layer depth <= d').
Proof.
  intros calc c fl u layer old depth (FC & FO & FT) d d'.
  assert (d' = delta_m_ltau (delta_m_f c u layer) (p_omega (u_val u layer)) d) as ->.
  { unfold d'. destruct (values_same calc c fl u layer old) as [_ ->]. unfold update_values. cbv zeta. rewrite FT. reflexivity. }
  unfold scaled_level. split.
  - unfold delta_m_ltau. cbv zeta. ring.
  - intros f TR F W D. rewrite (truncated_is _ _ _ _ TR) in *. split; [apply (ltau_range _ _ depth); try assumption; lra|].
    unfold delta_m_ltau. cbv zeta. pose proof (wf_pos _ _ F W). nra.
Qed.

(** The linearised update returns the derivatives of the scaled properties along any path of the
    inputs. *)
Theorem C29_derivatives : forall c fl u layer i t0 old old_l,
  values_due fl -> c_use_g c = false -> c_use_coef c = true ->
  moves c (fun t => u_val (u t) layer) t0 (u_lin (u t0) layer i) ->
  delta_m_f c (u t0) layer <> 1 -> p_omega (u_val (u t0) layer) * delta_m_f c (u t0) layer <> 1 ->
  exists y, update_derivs c fl (u t0) layer i old_l = Some y /\
    moves_scaled c (fun t => update_values_d c fl (u t) layer old) t0 y.
Proof.
  intros c fl u layer i t0 old old_l (FC & FO & FT) UG UC (MG & MW & MT & MC) N1 N2.
  set (fl_ := if (c_ncoef_layer c layer <=? c_ncoef2 c)%nat then 0 else p_coef (u_lin (u t0) layer i) 0 (c_ncoef2 c) / two_j_1 (c_ncoef2 c)).
  assert (EF : delta_m_f_l c (u t0) layer i = Some fl_).
  { unfold delta_m_f_l, fl_. rewrite UG. cbv zeta. destruct (c_ncoef_layer c layer <=? c_ncoef2 c)%nat; reflexivity. }
  assert (DF : derivable_pt_lim (fun t => delta_m_f c (u t) layer) t0 fl_).
  { unfold delta_m_f, fl_. rewrite UG. cbv zeta. destruct (c_ncoef_layer c layer <=? c_ncoef2 c)%nat; [apply dl_const|].
    assert (two_j_1 (c_ncoef2 c) <> 0) as NZ by (pose proof (peak_pos (c_ncoef2 c)); unfold two_j_1; lra).
    eapply dl_eq; [apply dl_div; [apply (MC 0%nat (c_ncoef2 c)); right; auto|apply dl_const|exact NZ]|]. cbv beta. field. exact NZ. }
  unfold update_derivs. rewrite EF, UG, UC, FC, FO, FT. cbn [andb negb orb]. eexists. split; [reflexivity|].
  unfold moves_scaled, update_values_d. cbv zeta. rewrite UG, UC, FC, FO, FT. cbn [andb negb orb p_omega p_ltau p_coef].
  refine (conj _ (conj _ _)).
  - apply omega_deriv with (f := fun t => delta_m_f c (u t) layer) (w := fun t => p_omega (u_val (u t) layer)); [exact DF|exact MW|lra].
  - apply ltau_deriv with (f := fun t => delta_m_f c (u t) layer) (w := fun t => p_omega (u_val (u t) layer)) (T := fun t => p_ltau (u_val (u t) layer));
      [exact DF|exact MW|exact MT].
  - intros r j HR HJ. apply coef_deriv with (f := fun t => delta_m_f c (u t) layer) (coef := fun t => p_coef (u_val (u t) layer)).
    + exact DF.
    + lra.
    + unfold inrows. unfold rows in HR. apply Nat.ltb_lt. exact HR.
    + exact HJ.
    + apply MC. left. auto.
Qed.
(** With the asymmetry parameter the derivative of the truncated fraction is read with its two
    indices exchanged: exact when that makes no difference. *)
Theorem C29_asymmetry_derivatives : forall c fl u layer i t0 old old_l,
  values_due fl -> f_g fl = true -> c_use_g c = true ->
  (i < c_layers c)%nat -> (layer < c_derivs c)%nat -> p_g (u_lin (u t0) i layer) = p_g (u_lin (u t0) layer i) ->
  moves c (fun t => u_val (u t) layer) t0 (u_lin (u t0) layer i) ->
  delta_m_f c (u t0) layer <> 1 -> p_omega (u_val (u t0) layer) * delta_m_f c (u t0) layer <> 1 ->
  exists y, update_derivs c fl (u t0) layer i old_l = Some y /\
    let x t := update_values_d c fl (u t) layer old in
    derivable_pt_lim (fun t => p_g (x t)) t0 (p_g y) /\
    derivable_pt_lim (fun t => p_omega (x t)) t0 (p_omega y) /\
    derivable_pt_lim (fun t => p_ltau (x t)) t0 (p_ltau y).
Proof.
  intros c fl u layer i t0 old old_l (FC & FO & FT) FG UG LI LL SY (MG & MW & MT & MC) N1 N2.
  set (fl_ := 2 * p_g (u_val (u t0) layer) * p_g (u_lin (u t0) layer i)).
  assert (EF : delta_m_f_l c (u t0) layer i = Some fl_).
  { unfold delta_m_f_l, fl_, read_g0_l. rewrite UG. apply Nat.ltb_lt in LI, LL. rewrite LI, LL. cbn [andb option_map]. now rewrite SY. }
  assert (DF : derivable_pt_lim (fun t => delta_m_f c (u t) layer) t0 fl_).
  { unfold delta_m_f, fl_. rewrite UG. eapply dl_eq; [apply dl_mult; [exact MG|exact MG]|]. cbv beta. ring. }
  unfold update_derivs. rewrite EF, UG, FG, FO, FT. cbn [andb negb orb]. eexists. split; [reflexivity|].
  cbv zeta. unfold update_values_d. cbv zeta. rewrite UG, FG, FO, FT. cbn [andb negb orb p_g p_omega p_ltau].
  refine (conj _ (conj _ _)).
  - apply g_deriv with (f := fun t => delta_m_f c (u t) layer) (g := fun t => p_g (u_val (u t) layer)); [exact DF|exact MG|lra].
  - apply omega_deriv with (f := fun t => delta_m_f c (u t) layer) (w := fun t => p_omega (u_val (u t) layer)); [exact DF|exact MW|lra].
  - apply ltau_deriv with (f := fun t => delta_m_f c (u t) layer) (w := fun t => p_omega (u_val (u t) layer)) (T := fun t => p_ltau (u_val (u t) layer));
      [exact DF|exact MW|exact MT].
Qed.

(** The adjoint is the transpose of the linearised update and leaves nothing behind. *)
Theorem C29_adjoint : forall c fl u layer i s old_l y,
  values_due fl -> c_use_g c = false -> c_use_coef c = true ->
  delta_m_f c u layer <> 1 -> p_omega (u_val u layer) * delta_m_f c u layer <> 1 ->
  update_derivs c fl u layer i old_l = Some y ->
  let s' := opt_props_update_a c u layer s in
  pairing c (c_ncoef2 c) y (a_out s) = pairing c (S (c_ncoef2 c)) (u_lin u layer i) (gain (a_in s') (a_in s)) /\
  p_omega (a_out s') = 0 /\ p_ltau (a_out s') = 0 /\ a_f s' = 0 /\
  (forall r j, (r < rows c)%nat -> (j < c_ncoef2 c)%nat -> p_coef (a_out s') r j = 0).
Proof.
  intros c fl u layer i s old_l y (FC & FO & FT) UG UC N1 N2 U s'.
  unfold update_derivs in U. rewrite UG, UC, FC, FO, FT in U. cbn [andb negb orb] in U.
  set (f := delta_m_f c u layer) in *. set (x := u_val u layer) in *. set (z := u_lin u layer i) in *. set (N := c_ncoef2 c) in *.
  destruct (delta_m_f_l c u layer i) as [fl_|] eqn:EF; [|discriminate]. injection U as <-.
  assert (NZ : 1 - f <> 0) by lra. assert (NW : 1 - p_omega x * f <> 0) by lra.
  assert (NP : two_j_1 N <> 0) by (pose proof (peak_pos N); unfold two_j_1; lra).
  (* the adjoint *)
  unfold s', opt_props_update_a. fold f. fold x. fold N. cbv zeta. unfold delta_m_coef_a.
  set (s1 := delta_m_omega_a f (p_omega x) (delta_m_ltau_a f (p_omega x) (p_ltau x) {| a_in := a_in s; a_f := 0; a_out := a_out s |})).
  assert (C1 : p_coef (a_out s1) = p_coef (a_out s)) by reflexivity.
  assert (C2 : p_coef (a_in s1) = p_coef (a_in s)) by reflexivity.
  destruct (coef_a_closed N (c_allsix c) (c_gc c) f (p_coef x) (p_coef (a_out s1)) (p_coef (a_in s1)) (a_f s1) NZ) as [Q1 Q2].
  destruct (coef_a_loop _ _ _ _ _ _ _) as [ca fa] eqn:EL. cbn [fst snd] in Q1, Q2. clear EL.
  rewrite C1, C2 in *.
  set (SUM := total N (fun j => total (rows c) (fun r => p_coef (a_out s) r j * rate (c_gc c) f (p_coef x) r j))).
  assert (Q2' : fa = a_f s1 + SUM) by exact Q2.
  (* the sum over the coefficients *)
  assert (TL : total N (fun j => total (rows c) (fun r =>
             delta_m_coef_l N (c_allsix c) (c_gc c) f fl_ (p_coef x) (p_coef z) (p_coef old_l) r j * p_coef (a_out s) r j)) =
             total N (fun j => total (rows c) (fun r => p_coef z r j * (ca r j - p_coef (a_in s) r j))) + fl_ * SUM).
  { unfold SUM. rewrite <- total_scale, <- total_plus. apply total_ext. intros j HJ. rewrite <- total_scale, <- total_plus.
    apply total_ext. intros r HR. rewrite coef_l_closed by exact NZ. rewrite Q1. unfold inrows. unfold rows in HR.
    destruct (Nat.ltb_spec j N); [|lia]. destruct (Nat.ltb_spec r (if c_allsix c then 6 else 1)); [|lia]. cbn [andb]. ring. }
  assert (TOP : forall k, total (rows c) (fun r => p_coef z r N * (ca r N - p_coef (a_in s) r N)) = 0 /\
     total (rows c) (fun r => p_coef z r N * ((if ((r =? 0) && (N =? N))%nat then ca 0%nat N + k else ca r N) - p_coef (a_in s) r N)) = p_coef z 0 N * k).
  { intros k. assert (E : forall r, ca r N = p_coef (a_in s) r N).
    { intros r. rewrite Q1. destruct (Nat.ltb_spec N N); [lia|reflexivity]. }
    split.
    - apply total_zero. intros r _. rewrite E. ring.
    - rewrite Nat.eqb_refl. unfold rows. destruct (c_allsix c); cbn [total Nat.eqb andb]; rewrite !E; ring. }
  assert (LOW : forall k, total N (fun j => total (rows c) (fun r => p_coef z r j * ((if ((r =? 0) && (j =? N))%nat then ca 0%nat N + k else ca r j) - p_coef (a_in s) r j))) =
      total N (fun j => total (rows c) (fun r => p_coef z r j * (ca r j - p_coef (a_in s) r j)))).
  { intros k. apply total_ext. intros j HJ. apply total_ext. intros r HR. destruct (Nat.eqb_spec j N); [lia|]. rewrite andb_false_r. reflexivity. }
  assert (EFL : fl_ = if (c_ncoef_layer c layer <=? N)%nat then 0 else p_coef z 0 N / two_j_1 N).
  { unfold delta_m_f_l in EF. rewrite UG in EF. cbv zeta in EF. fold N z in EF. destruct (c_ncoef_layer c layer <=? N)%nat; injection EF as <-; reflexivity. }
  assert (FIN : p_omega (a_in s1) = p_omega (a_in s) + - p_ltau (a_out s) * p_ltau x * f + p_omega (a_out s) / (1 - p_omega x * f) * (1 - f)
      + p_omega (a_out s) / (1 - p_omega x * f) * (p_omega x * (1 - f) / (1 - p_omega x * f)) * f) by reflexivity.
  assert (FT1 : p_ltau (a_in s1) = p_ltau (a_in s) + p_ltau (a_out s) * (1 - p_omega x * f)) by reflexivity.
  assert (FF1 : a_f s1 = 0 + - p_ltau (a_out s) * p_ltau x * p_omega x - p_omega (a_out s) / (1 - p_omega x * f) * p_omega x
      + p_omega (a_out s) / (1 - p_omega x * f) * (p_omega x * (1 - f) / (1 - p_omega x * f)) * p_omega x) by reflexivity.
  assert (O1 : p_omega (a_out s1) = 0) by reflexivity. assert (O2 : p_ltau (a_out s1) = 0) by reflexivity.
  clearbody s1. clear C1 C2. unfold delta_m_f_a. rewrite UG. cbv zeta. fold N.
  assert (ZC : forall r j, (r < rows c)%nat -> (j < N)%nat -> coef_zero_loop N (c_allsix c) (p_coef (a_out s)) r j = 0).
  { intros r j HR HJ. rewrite coef_zero_closed. unfold inrows. unfold rows in HR.
    destruct (Nat.ltb_spec j N); [|lia]. destruct (Nat.ltb_spec r (if c_allsix c then 6 else 1)); [|lia]. reflexivity. }
  destruct (c_ncoef_layer c layer <=? N)%nat; cbn [with_in a_in a_out a_f p_coef p_omega p_ltau];
    (split; [|refine (conj _ (conj _ (conj eq_refl _))); [exact O1|exact O2|exact ZC]]).
  - unfold pairing, gain. cbn [p_omega p_ltau p_coef total]. rewrite TL. destruct (TOP 0) as [T0 _]. rewrite T0, FIN, FT1, EFL.
    unfold delta_m_omega_l, delta_m_ltau_l. cbv zeta. field. exact NW.
  - unfold pairing, gain. cbn [p_omega p_ltau p_coef total]. rewrite TL. unfold set2. rewrite LOW. destruct (TOP (fa / two_j_1 N)) as [_ T0]. rewrite T0, FIN, FT1, Q2', FF1, EFL.
    unfold delta_m_omega_l, delta_m_ltau_l. cbv zeta. field. split; assumption.
Qed.

(** The albedo used for the single scattering correction: its value, derivatives and adjoint. *)
Theorem C29_correction_albedo : forall (f w : R -> R) t0 f_l w_l f_a w_a tms_a,
  derivable_pt_lim f t0 f_l -> derivable_pt_lim w t0 w_l -> w t0 * f t0 <> 1 ->
  n_t_tms_scaling (f t0) (w t0) * (1 - f t0) = delta_m_omega (f t0) (w t0) /\
  derivable_pt_lim (fun t => n_t_tms_scaling (f t) (w t)) t0 (n_t_tms_scaling_l (f t0) f_l (w t0) w_l) /\
  let '(f_a', w_a') := n_t_tms_scaling_a (f t0) f_a (w t0) (n_t_tms_scaling (f t0) (w t0)) w_a tms_a in
  n_t_tms_scaling_l (f t0) f_l (w t0) w_l * tms_a = f_l * (f_a' - f_a) + w_l * (w_a' - w_a).
Proof.
  intros f w t0 f_l w_l f_a w_a tms_a DF DW NZ. assert (A : 1 - f t0 * w t0 <> 0) by lra. assert (B : 1 - w t0 * f t0 <> 0) by lra.
  refine (conj _ (conj _ _)).
  - unfold n_t_tms_scaling, delta_m_omega. cbv zeta. field; repeat split; assumption.
  - apply tms_deriv; assumption.
  - unfold n_t_tms_scaling_a, n_t_tms_scaling, n_t_tms_scaling_l. cbv zeta. field. exact A.
Qed.

(* ------------------------------------------------------------------------- *)
(** * Where the code departs from the claim                                   *)

Definition due : dflags := {| f_g := true; f_g_l := true; f_coef := true; f_coef_l := true;
  f_omega := true; f_omega_l := true; f_ltau := true; f_ltau_l := true |}.
(** Vector calculations with Legendre coefficients: the two off-diagonal rows are not divided by
    1-f, so the scaled phase matrix and the peak do not make up the phase matrix. *)
Theorem C29_legendre_offdiagonal_refuted :
  exists c u f, c_use_g c = false /\ c_use_coef c = true /\ truncated c u 0 f /\ 0 < f < 1 /\
    forall calc old, ~ recombines c f (u_val u 0%nat) (scaled calc c due u 0 old).
Proof.
  pose (c := {| c_layers := 1; c_derivs := 0; c_use_g := false; c_use_coef := true; c_ncoef2 := 1; c_ncoef_layer := fun _ => 2%nat; c_allsix := true; c_gc := false |}).
  pose (x := {| p_g := 0; p_omega := 1/2; p_ltau := 1; p_coef := fun r j => if (r =? 0)%nat then (if (j =? 0)%nat then 1 else 3/2) else 1 |}).
  exists c, {| u_val := fun _ => x; u_lin := fun _ _ => x |}, (1/2). refine (conj eq_refl (conj eq_refl (conj _ (conj _ _)))).
  - unfold truncated, peak, x, c. cbn. lra.
  - lra.
  - intros calc old RC. specialize (RC 4%nat 0%nat). unfold rows in RC. cbn [c_allsix c_ncoef2 c] in RC.
    specialize (RC ltac:(lia) ltac:(lia)). rewrite (coef_now calc c due _ 0%nat old eq_refl eq_refl eq_refl) in RC.
    rewrite coef_closed in RC. cbn in RC. lra.
Qed.
(** Derivatives of the asymmetry parameter: with two derivatives and one layer the read is
    outside of the array; with two layers the number read belongs to another layer. *)
Theorem C29_asymmetry_indices_refuted :
  (exists c u old, c_use_g c = true /\ (0 < c_layers c)%nat /\ (1 < c_derivs c)%nat /\ update_derivs c due u 0 1 old = None) /\
  (exists c u old_l old, c_use_g c = true /\ (0 < c_layers c)%nat /\ (1 < c_derivs c)%nat /\
     moves c (fun t => u_val (u t) 0%nat) 0 (u_lin (u 0) 0%nat 1%nat) /\
     delta_m_f c (u 0) 0%nat = 1/4 /\
     exists y, update_derivs c due (u 0) 0 1 old_l = Some y /\
       ~ derivable_pt_lim (fun t => p_omega (update_values_d c due (u t) 0%nat old)) 0 (p_omega y)).
Proof.
  pose (x0 := {| p_g := 0; p_omega := 0; p_ltau := 0; p_coef := fun _ _ => 0 |}).
  split.
  - exists {| c_layers := 1; c_derivs := 2; c_use_g := true; c_use_coef := false; c_ncoef2 := 1; c_ncoef_layer := fun _ => 2%nat; c_allsix := false; c_gc := false |},
      {| u_val := fun _ => x0; u_lin := fun _ _ => x0 |}, x0.
    refine (conj eq_refl (conj _ (conj _ eq_refl))); cbn; lia.
  - pose (c := {| c_layers := 2; c_derivs := 2; c_use_g := true; c_use_coef := false; c_ncoef2 := 1; c_ncoef_layer := fun _ => 2%nat; c_allsix := false; c_gc := false |}).
    pose (x := fun t : R => {| p_g := 1/2 + t; p_omega := 1/2; p_ltau := 1; p_coef := fun _ _ => 0 |}).
    pose (y1 := {| p_g := 1; p_omega := 0; p_ltau := 0; p_coef := fun _ _ => 0 |}).
    pose (u := fun t : R => {| u_val := fun _ => x t; u_lin := fun l d => if ((l =? 0) && (d =? 1))%nat then y1 else x0 |}).
    assert (MV : moves c (fun t => u_val (u t) 0%nat) 0 y1).
    { refine (conj _ (conj _ (conj _ _))); cbn [u u_val x p_g p_omega p_ltau p_coef y1].
      - eapply dl_eq; [apply dl_plus; [apply dl_const|exact (derivable_pt_lim_id 0)]|ring].
      - apply dl_const.
      - apply dl_const.
      - intros. apply dl_const. }
    assert (F : delta_m_f c (u 0) 0%nat = 1/4) by (unfold delta_m_f; cbn; lra).
    exists c, u, x0, x0. refine (conj eq_refl (conj _ (conj _ (conj MV (conj F _))))); [cbn; lia|cbn; lia|].
    eexists. split; [reflexivity|]. intros D.
    assert (D2 : derivable_pt_lim (fun t => p_omega (update_values_d c due (u t) 0%nat x0)) 0 (delta_m_omega_l (1/4) 1 (1/2) 0)).
    { assert (DF : derivable_pt_lim (fun t => delta_m_f c (u t) 0%nat) 0 1).
      { destruct MV as [MG _]. eapply dl_eq; [exact (dl_mult _ _ _ _ _ MG MG)|]. cbn. lra. }
      rewrite <- F at 1. apply (omega_deriv (fun t => delta_m_f c (u t) 0%nat) (fun t => 1/2)); [exact DF|apply dl_const|rewrite F; lra]. }
    pose proof (uniqueness_limite _ _ _ _ D D2) as E. revert E. cbn. unfold delta_m_omega_l. cbv zeta. intros E.
    assert (E1 : (0 * (1 - (1/2 + 0) * (1/2 + 0)) - 1/2 * (2 * (1/2 + 0) * 0)) / (1 - 1/2 * ((1/2 + 0) * (1/2 + 0))) +
      1/2 * (1 - (1/2 + 0) * (1/2 + 0)) * (0 * ((1/2 + 0) * (1/2 + 0)) + 1/2 * (2 * (1/2 + 0) * 0)) /
      ((1 - 1/2 * ((1/2 + 0) * (1/2 + 0))) * (1 - 1/2 * ((1/2 + 0) * (1/2 + 0)))) = 0) by (field; lra).
    assert (E2 : (0 * (1 - 1/4) - 1/2 * 1) / (1 - 1/2 * (1/4)) + 1/2 * (1 - 1/4) * (0 * (1/4) + 1/2 * 1) / ((1 - 1/2 * (1/4)) * (1 - 1/2 * (1/4))) = -16/49) by field.
    lra.
Qed.
(** A handle made for the two-stream solver and another one: with everything new the
    coefficients are not scaled at all, the scaled array keeps whatever it held. *)
Theorem C29_two_solvers_refuted :
  forall calc c u layer old, c_use_g c = true -> c_use_coef c = true ->
  p_coef (scaled calc c due u layer old) = p_coef old.
Proof.
  intros calc c u layer old UG UC. unfold scaled, update_values, update_values_d. destruct calc; cbv zeta; rewrite UG, UC; reflexivity.
Qed.

(* ------------------------------------------------------------------------- *)
(** * A concrete case                                                         *)

(** One layer, four coefficients of which the solver uses two: 1, 2, 1.25, ...; f = 1.25/5. *)
Definition ex_cfg : dcfg := {| c_layers := 1; c_derivs := 1; c_use_g := false; c_use_coef := true; c_ncoef2 := 2;
  c_ncoef_layer := fun _ => 4%nat; c_allsix := false; c_gc := true |}.
Definition ex_coef (j : nat) : R := match j with O => 1 | S O => 2 | S (S O) => 5/4 | _ => 1/2 end.
Definition ex_props (t : R) : props := {| p_g := 0; p_omega := 4/5; p_ltau := 2 + t; p_coef := fun _ j => ex_coef j |}.
Definition ex_rates : props := {| p_g := 0; p_omega := 0; p_ltau := 1; p_coef := fun _ _ => 0 |}.
Definition ex_in (t : R) : unscaled := {| u_val := fun _ => ex_props t; u_lin := fun _ _ => ex_rates |}.
Example ex_due : values_due due. Proof. repeat split. Qed.
Example ex_truncated : truncated ex_cfg (ex_in 0) 0 (1/4).
Proof. unfold truncated, peak. cbn. lra. Qed.
Example ex_moves : moves ex_cfg (fun t => u_val (ex_in t) 0%nat) 0 (u_lin (ex_in 0) 0%nat 0%nat).
Proof.
  refine (conj _ (conj _ (conj _ _))); cbn [ex_in u_val u_lin ex_props ex_rates p_g p_omega p_ltau p_coef].
  - apply dl_const.
  - apply dl_const.
  - eapply dl_eq; [apply dl_plus; [apply dl_const|exact (derivable_pt_lim_id 0)]|ring].
  - intros. apply dl_const.
Qed.
Example ex_values : let y := scaled true ex_cfg due (ex_in 0) 0 ex_rates in
  p_ltau y = 8/5 /\ p_omega y = 3/4 /\ p_coef y 0%nat 1%nat = 5/3.
Proof.
  assert (F : delta_m_f ex_cfg (ex_in 0) 0%nat = 1/4) by (symmetry; apply truncated_is; exact ex_truncated).
  unfold scaled, update_values_d. rewrite F. cbv zeta. cbn [due f_g f_g_l f_coef f_omega f_ltau ex_cfg c_use_g c_use_coef andb orb negb p_ltau p_omega p_coef].
  refine (conj _ (conj _ _)).
  - unfold delta_m_ltau. cbn. lra.
  - unfold delta_m_omega. cbn. field.
  - rewrite coef_closed. unfold two_j_1. cbn. field.
Qed.
Example ex_nonsingular : delta_m_f ex_cfg (ex_in 0) 0 <> 1 /\ p_omega (u_val (ex_in 0) 0%nat) * delta_m_f ex_cfg (ex_in 0) 0 <> 1.
Proof.
  rewrite <- (truncated_is _ _ _ _ ex_truncated). cbn. split; lra.
Qed.
(** The linearised update of this case and a seed on the scaled depth: d(tau')/d(tau) = 0.8. *)
Example ex_adjoint : exists y, update_derivs ex_cfg due (ex_in 0) 0 0 ex_rates = Some y /\ p_ltau y = 4/5 /\
  p_ltau (a_in (opt_props_update_a ex_cfg (ex_in 0) 0 {| a_in := {| p_g := 0; p_omega := 0; p_ltau := 0; p_coef := fun _ _ => 0 |}; a_f := 0; a_out := ex_rates |})) = 4/5.
Proof.
  assert (F : delta_m_f ex_cfg (ex_in 0) 0%nat = 1/4) by (symmetry; apply truncated_is; exact ex_truncated).
  eexists. split; [reflexivity|]. cbn [p_ltau due f_ltau f_ltau_l orb]. split.
  - rewrite F. unfold delta_m_ltau_l. cbn. field. unfold two_j_1. cbn. lra.
  - unfold opt_props_update_a. rewrite F. cbv zeta. unfold delta_m_f_a, delta_m_coef_a.
    destruct (coef_a_loop _ _ _ _ _ _ _). cbn. field.
Qed.

Print Assumptions C29_depths.
Print Assumptions C29_phase_function.
Print Assumptions C29_asymmetry.
Print Assumptions C29_nothing_truncated.
Print Assumptions C29_ranges.
Print Assumptions C29_levels.
Print Assumptions C29_derivatives.
Print Assumptions C29_asymmetry_derivatives.
Print Assumptions C29_adjoint.
Print Assumptions C29_correction_albedo.
Print Assumptions C29_legendre_offdiagonal_refuted.
Print Assumptions C29_asymmetry_indices_refuted.
Print Assumptions C29_two_solvers_refuted.
