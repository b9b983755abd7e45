(** Closed form of the integration of the source function over one layer, and the equation it obeys *)
From Coq Require Import Reals Bool Arith List ZArith Lia Lra.
From Verif Require Import Base DeltaMSpec DeltaMProofs SingleProofs AddingModel AddingSpec AddingMat EigModel EigSpec EigMat EigProofs AtmSpec ScatModel TwoSpec TwoModel TwoProofs TwoLight TwoDProofs ViewSpec ViewModel.
Open Scope R_scope.

(** * The phase functions *)
Section Phases.
Variable d : deck.
Variable u : R.
Definition side : R := sqrt (1 - u * u).
Definition vpp (k : nat) : R := if (t_four d =? 0)%nat then 1 + t_coef d k 1%nat * (u * t_qx d) else t_coef d k 1%nat * (side * sqrt (1 - t_qx d * t_qx d)).
Definition vmp (k : nat) : R := if (t_four d =? 0)%nat then 1 - t_coef d k 1%nat * (u * t_qx d) else t_coef d k 1%nat * (side * sqrt (1 - t_qx d * t_qx d)).
Definition vmm0 (k : nat) : R := if (t_four d =? 0)%nat then 1 + t_coef d k 1%nat * (u * t_mu0 d) else t_coef d k 1%nat * (side * sqrt (1 - t_mu0 d * t_mu0 d)).
Definition vpm0 (k : nat) : R := if (t_four d =? 0)%nat then 1 - t_coef d k 1%nat * (u * t_mu0 d) else t_coef d k 1%nat * (side * sqrt (1 - t_mu0 d * t_mu0 d)).
End Phases.
Lemma view_phases_ok : forall d n_coef umu j k, (1 < n_coef)%nat -> 0 < t_qx d < 1 -> 0 < t_mu0 d <= 1 -> 0 < umu j <= 1 ->
  view_phases d n_coef umu j k = Answer (vpp d (umu j) k, vmp d (umu j) k, vmm0 d (umu j) k, vpm0 d (umu j) k).
Proof.
  intros d nc umu j k NC Q M U. unfold view_phases, coefficient. rewrite !root_ok by nra. cbn [bind]. destruct (Nat.ltb_spec 1 nc); [|lia]. cbn [bind]. unfold vpp, vmp, vmm0, vpm0, side. destruct (t_four d =? 0)%nat; reflexivity.
Qed.
(** ... are those of the specification. *)
Lemma seen_from : forall d n umu once xs k i, sees_from d n umu once xs -> (t_four d <= 1)%nat -> 0 < t_qx d < 1 -> 0 < t_mu0 d <= 1 -> t_coef d k 0%nat = 1 -> (i <= n)%nat ->
  P_pp (xs k) i 0%nat = vpp d (angle d umu i) k /\ P_mp (xs k) i 0%nat = vmp d (angle d umu i) k /\
  Q_mm (xs k) i = directly once (fun i => vmm0 d (angle d umu i) k) i /\ Q_pm (xs k) i = directly once (fun i => vpm0 d (angle d umu i) k) i.
Proof.
  intros d n umu once xs k i (y & y0 & Y & Y0 & G & G0 & ->) F Q M C0 Hi. pose proof (G i Hi) as Gi. pose proof (G 0%nat ltac:(lia)) as Gq. cbn [angle] in Gq.
  assert (sqrt (1 / 2) * sqrt (1 / 2) = 1 / 2) as E2 by (apply sqrt_sqrt; lra).
  cbn [extended P_pp P_mp Q_mm Q_pm]. unfold build_phase_mats, phase_vecs_get, build_phase_vecs. cbn [fst snd]. rewrite !one_term.
  refine (conj _ (conj _ _)).
  - unfold vpp, side. destruct (t_four d) as [|[|f]]; [| |lia]; cbn [Nat.eqb Nat.ltb Nat.leb Nat.add].
    + destruct (get_zero _ _ _ Gi) as (-> & ->). destruct (get_zero _ _ _ Gq) as (-> & ->). rewrite C0. ring.
    + rewrite (get_one _ _ _ Gi), (get_one _ _ _ Gq). set (z := sqrt (1 / 2)) in *. set (p := sqrt _). set (q := sqrt _).
      replace (0 + t_coef d k 1%nat * (- z * p) * (- z * q) + 0) with (t_coef d k 1%nat * (z * z) * (p * q)) by ring. rewrite E2. field.
  - unfold vmp, side. destruct (t_four d) as [|[|f]]; [| |lia]; cbn [Nat.eqb Nat.ltb Nat.leb Nat.add].
    + destruct (get_zero _ _ _ Gi) as (-> & ->). destruct (get_zero _ _ _ Gq) as (-> & ->). rewrite C0. ring.
    + rewrite (get_one _ _ _ Gi), (get_one _ _ _ Gq). set (z := sqrt (1 / 2)) in *. set (p := sqrt _). set (q := sqrt _).
      replace (0 + t_coef d k 1%nat * (- z * p) * (- z * q) - 0) with (t_coef d k 1%nat * (z * z) * (p * q)) by ring. rewrite E2. field.
  - unfold get_Y_0 in G0.
    match goal with |- directly _ ?a _ = _ /\ directly _ ?c _ = _ => set (A := a); set (B := c) end. assert (forall q, Y q = Y i -> angle d umu q = angle d umu i -> A q = vmm0 d (angle d umu q) k /\ B q = vpm0 d (angle d umu q) k) as H.
    { intros q Eq Ea. unfold A, B, vmm0, vpm0, side. rewrite !one_term, Eq, Ea. destruct (t_four d) as [|[|f]]; [| |lia]; cbn [Nat.eqb Nat.ltb Nat.leb Nat.add].
      - destruct (get_zero _ _ _ Gi) as (-> & ->). destruct (get_zero _ _ _ G0) as (-> & ->). rewrite C0. split; ring.
      - rewrite (get_one _ _ _ Gi), (get_one _ _ _ G0). replace (- t_mu0 d * - t_mu0 d) with (t_mu0 d * t_mu0 d) by ring. set (z := sqrt (1 / 2)) in *. set (p := sqrt _). set (w := sqrt _).
        split; match goal with |- ?x = ?y => replace x with (y * (2 * (z * z))) by ring; rewrite E2; field end. }
    destruct (H i eq_refl eq_refl) as (H1 & H2). destruct i as [|i]; cbn [directly]; [split; assumption|]. destruct once; split; try assumption; reflexivity.
Qed.

(** * One layer *)
Section Layer.
Variable d : deck.
Variables (solar : bool) (once : bool).
Variable u : R.
Variable k : nat.
Variable w : wave.
Variable b : vec.
Notation L := (t_ltau d k).
Notation nu := (w_nu w).
Notation a0 := (t_as0 d k).
Definition aa : R := (1 + (if (t_four d =? 0)%nat then 1 else 0)) / 4.
(** Strength of the sources: following the beam, and of the two modes *)
Definition beam_up (F : R) : R := if solar then t_omega d k * (aa * (vpp d u k * w_Fp w + vmp d u k * w_Fm w) + (if once then t_btran d k * (F / (4 * PI)) * vpm0 d u k else 0)) else 0.
Definition beam_down (F : R) : R := if solar then t_omega d k * (aa * (vmp d u k * w_Fp w + vpp d u k * w_Fm w) + (if once then t_btran d k * (F / (4 * PI)) * vmm0 d u k else 0)) else 0.
Definition one_up : R := t_omega d k * aa * b (2 * k)%nat * (vpp d u k * w_Xp w - vmp d u k * w_Xm w).
Definition two_up : R := t_omega d k * aa * b (2 * k + 1)%nat * (vpp d u k * w_Xm w - vmp d u k * w_Xp w).
Definition one_down : R := t_omega d k * aa * b (2 * k)%nat * (vmp d u k * w_Xp w - vpp d u k * w_Xm w).
Definition two_down : R := t_omega d k * aa * b (2 * k + 1)%nat * (vmp d u k * w_Xm w - vpp d u k * w_Xp w).
(** The light at the depth [s] if [c] enters the layer: from below, from above *)
Definition up_at (F c s : R) : R :=
  c * exp ((s - L) / u) + (if solar then beam_up F * ((exp (- a0 * s) - exp (- a0 * L) * exp ((s - L) / u)) / (1 + u * a0)) else 0) +
  one_up * ((exp (- nu * s) - exp (- nu * L) * exp ((s - L) / u)) / (1 + u * nu)) + two_up * ((exp (- nu * (L - s)) - exp ((s - L) / u)) / (1 - u * nu)).
Definition down_at (F c s : R) : R :=
  c * exp (- s / u) + (if solar then beam_down F * ((exp (- a0 * s) - exp (- s / u)) / (1 - u * a0)) else 0) +
  one_down * ((exp (- nu * s) - exp (- s / u)) / (1 - u * nu)) + two_down * ((exp (- nu * (L - s)) - exp (- nu * L) * exp (- s / u)) / (1 + u * nu)).
Hypothesis U : 0 < u <= 1.
Hypothesis N : 0 < nu.
Hypothesis N1 : u * nu <> 1.
Hypothesis A1 : solar = true -> u * a0 <> 1 /\ u * a0 <> -1.
Hypothesis A2 : solar = true -> t_atran d k = exp (- a0 * L).
Lemma plus_nu : 1 + u * nu <> 0. Proof using U N. clear N1. nra. Qed.
Lemma minus_nu : 1 - u * nu <> 0. Proof. lra. Qed.
Lemma up_bottom : forall F c, up_at F c L = c.
Proof.
  intros F c. unfold up_at. replace ((L - L) / u) with 0 by (field; lra). replace (- nu * (L - L)) with 0 by ring. rewrite exp_0. pose proof plus_nu. pose proof minus_nu.
  destruct solar; [destruct (A1 eq_refl); field; repeat split; lra|field; split; assumption].
Qed.
Lemma down_top : forall F c, down_at F c 0 = c.
Proof.
  intros F c. unfold down_at. replace (- 0 / u) with 0 by (field; lra). rewrite !Rmult_0_r, Rminus_0_r, exp_0. pose proof plus_nu. pose proof minus_nu.
  destruct solar; [destruct (A1 eq_refl); field; repeat split; lra|field; split; assumption].
Qed.
(** The equation of transfer along the direction *)
Lemma up_obeys : forall F c s, derivable_pt_lim (up_at F c) s
  ((up_at F c s - (beam_up F * exp (- a0 * s) + one_up * exp (- nu * s) + two_up * exp (- nu * (L - s)))) / u).
Proof.
  intros F c s. pose proof (dl_id s) as Id. pose proof plus_nu as P1. pose proof minus_nu as P2. unfold up_at. destruct solar eqn:So.
  - destruct (A1 eq_refl) as (B1 & B2). eapply dl_eq; [ddx; try exact P1; try exact P2; try lra|]. cbv beta. field. repeat split; lra.
  - assert (beam_up F = 0) as -> by (unfold beam_up; rewrite So; reflexivity). eapply dl_eq; [ddx; try exact P1; try exact P2; try lra|]. cbv beta. field. repeat split; lra.
Qed.
Lemma down_obeys : forall F c s, derivable_pt_lim (down_at F c) s
  ((beam_down F * exp (- a0 * s) + one_down * exp (- nu * s) + two_down * exp (- nu * (L - s)) - down_at F c s) / u).
Proof.
  intros F c s. pose proof (dl_id s) as Id. pose proof plus_nu as P1. pose proof minus_nu as P2. unfold down_at. destruct solar eqn:So.
  - destruct (A1 eq_refl) as (B1 & B2). eapply dl_eq; [ddx; try exact P1; try exact P2; try lra|]. cbv beta. field. repeat split; lra.
  - assert (beam_down F = 0) as -> by (unfold beam_down; rewrite So; reflexivity). eapply dl_eq; [ddx; try exact P1; try exact P2; try lra|]. cbv beta. field. repeat split; lra.
Qed.
End Layer.
(** The code computes this. *)
Lemma call_up : forall d n_coef solar m umu once j k ws b F c s, (1 < n_coef)%nat -> 0 < t_qx d < 1 -> 0 < t_mu0 d <= 1 -> 0 < umu j <= 1 -> (k <= m)%nat ->
  0 < w_nu (ws k) -> umu j * w_nu (ws k) <> 1 -> (solar = true -> umu j * t_as0 d k <> 1 /\ umu j * t_as0 d k <> -1) -> (solar = true -> t_atran d k = exp (- t_as0 d k * t_ltau d k)) ->
  layer_call d n_coef solar m umu once j F false ws b k (t_ltau d k - s) s s c = Answer (up_at d solar once (umu j) k (ws k) b F c s).
Proof.
  intros d nc solar m umu once j k ws b F c s NC Q M U Hk N N1 A1 A2. unfold layer_call. destruct (Nat.ltb_spec m k); [lia|]. rewrite view_phases_ok by assumption. cbn [bind]. cbv iota beta.
  unfold sfi_layer. cbv zeta. rewrite over_ok by lra. cbn [bind]. pose proof (plus_nu (umu j) (ws k) U N) as P1. pose proof (minus_nu (umu j) (ws k) N1) as P2. rewrite (over_ok _ _ P1), (over_ok _ _ P2).
  unfold up_at, beam_up, one_up, two_up, aa. replace (- (t_ltau d k - s) / umu j) with ((s - t_ltau d k) / umu j) by (field; lra). replace (- s * t_as0 d k) with (- t_as0 d k * s) by ring.
  destruct solar.
  - destruct (A1 eq_refl) as (B1 & B2). rewrite (A2 eq_refl). rewrite over_ok by lra. cbn [bind]. f_equal. destruct once; field; repeat split; first [apply PI_neq0|lra].
  - cbn [bind]. f_equal. field. split; lra.
Qed.
Lemma call_down : forall d n_coef solar m umu once j k ws b F c s, (1 < n_coef)%nat -> 0 < t_qx d < 1 -> 0 < t_mu0 d <= 1 -> 0 < umu j <= 1 -> (k <= m)%nat ->
  0 < w_nu (ws k) -> umu j * w_nu (ws k) <> 1 -> (solar = true -> umu j * t_as0 d k <> 1 /\ umu j * t_as0 d k <> -1) ->
  layer_call d n_coef solar m umu once j F true ws b k s (t_ltau d k - s) s c = Answer (down_at d solar once (umu j) k (ws k) b F c s).
Proof.
  intros d nc solar m umu once j k ws b F c s NC Q M U Hk N N1 A1. unfold layer_call. destruct (Nat.ltb_spec m k); [lia|]. rewrite view_phases_ok by assumption. cbn [bind]. cbv iota beta.
  unfold sfi_layer. cbv zeta. rewrite over_ok by lra. cbn [bind]. pose proof (plus_nu (umu j) (ws k) U N) as P1. pose proof (minus_nu (umu j) (ws k) N1) as P2. rewrite (over_ok _ _ P1), (over_ok _ _ P2).
  unfold down_at, beam_down, one_down, two_down, aa. replace (- s * t_as0 d k) with (- t_as0 d k * s) by ring.
  destruct solar.
  - destruct (A1 eq_refl) as (B1 & B2). rewrite over_ok by lra. cbn [bind]. f_equal. destruct once; field; repeat split; first [apply PI_neq0|lra].
  - cbn [bind]. f_equal. field. split; lra.
Qed.
