(** The light of the two-stream solver obeys the equation of transfer of one stream in each hemisphere. *)
From Coq Require Import Reals Bool Arith List ZArith Lia Lra.
From Verif Require Import Base DeltaMSpec DeltaMProofs AddingModel AddingSpec AddingMat EigModel EigSpec EigMat EigProofs EigProperties AtmSpec AtmProperties BvpModel BvpSpec BvpProperties ScatModel GaussProofs TwoSpec TwoModel TwoProofs.
From Verif Require BrdfTheorems.
Open Scope R_scope.

(** * The phase function *)
Lemma get_zero : forall mu y Y, get_Y 0 2 mu y = Some Y -> Y 0%nat = 1 /\ Y 1%nat = mu.
Proof. intros mu y Y H. cbv [get_Y leg_poly_assoc ScatModel.bind ScatModel.put ScatModel.run Nat.eqb Nat.ltb Nat.leb Nat.sub Nat.add] in H. injection H as <-. split; reflexivity. Qed.
Lemma get_one : forall mu y Y, get_Y 1 2 mu y = Some Y -> Y 1%nat = - sqrt (1 / 2) * sqrt (1 - mu * mu).
Proof.
  intros mu y Y H. cbv [get_Y leg_poly_assoc ScatModel.bind ScatModel.put ScatModel.run Nat.eqb Nat.ltb Nat.leb Nat.sub Nat.add factors step_factors half_power pow INR] in H. injection H as <-.
  cbn [fst snd]. replace (2 * 1 - 1) with 1 by ring. replace (2 * 1) with 2 by ring. ring.
Qed.
Definition cs (d : deck) (k : nat) : R := (1 + (if (t_four d =? 0)%nat then 1 else 0)) / 4 * t_omega d k.
Definition pp (d : deck) (k : nat) : R := if (t_four d =? 0)%nat then 1 + t_coef d k 1%nat * (t_qx d * t_qx d) else t_coef d k 1%nat * (1 - t_qx d * t_qx d).
Definition mp (d : deck) (k : nat) : R := if (t_four d =? 0)%nat then 1 - t_coef d k 1%nat * (t_qx d * t_qx d) else t_coef d k 1%nat * (1 - t_qx d * t_qx d).
Definition slant (d : deck) : R := sqrt (1 - t_qx d * t_qx d) * sqrt (1 - t_mu0 d * t_mu0 d).
Definition qmm (d : deck) (k : nat) : R := if (t_four d =? 0)%nat then 1 + t_coef d k 1%nat * (t_qx d * t_mu0 d) else t_coef d k 1%nat * slant d.
Definition qpm (d : deck) (k : nat) : R := if (t_four d =? 0)%nat then 1 - t_coef d k 1%nat * (t_qx d * t_mu0 d) else t_coef d k 1%nat * slant d.

Lemma one_term : forall i f, alternate i 2 f = if (i <? 2)%nat then 0 + f i else 0.
Proof. intros i f. destruct i as [|[|[|i]]]; reflexivity. Qed.
Lemma seen : forall d xs k, sees d xs -> (t_four d <= 1)%nat -> 0 < t_qx d < 1 -> 0 < t_mu0 d <= 1 -> t_coef d k 0%nat = 1 ->
  (forall i j, P_pp (xs k) i j = pp d k /\ P_mp (xs k) i j = mp d k) /\ (forall i, Q_mm (xs k) i = qmm d k /\ Q_pm (xs k) i = qpm d k) /\
  (forall i, qx (xs k) i = t_qx d /\ qw (xs k) i = 1) /\
  zeroth (xs k) = (t_four d =? 0)%nat /\ flux0 (xs k) = t_F0 d /\ omega (xs k) = t_omega d k /\ ltau (xs k) = t_ltau d k /\ as_0 (xs k) = t_as0 d k /\ atran (xs k) = t_atran d k /\ btran (xs k) = t_btran d k /\
  qx (xs k) = qx (xs 0%nat) /\ qw (xs k) = qw (xs 0%nat).
Proof.
  intros d xs k (y & y0 & Y & Y0 & G & G0 & ->) F Q M C0. refine (conj _ (conj _ (conj (fun i => conj eq_refl eq_refl) (conj eq_refl (conj eq_refl (conj eq_refl (conj eq_refl (conj eq_refl (conj eq_refl (conj eq_refl (conj eq_refl eq_refl))))))))))).
  - intros i j. cbn [P_pp P_mp general]. unfold build_phase_mats, pp, mp. cbn [fst snd]. rewrite !one_term. destruct (t_four d) as [|[|f]]; [| |lia]; cbn [Nat.eqb Nat.ltb Nat.leb Nat.add].
    + destruct (get_zero _ _ _ G) as (-> & ->). rewrite C0. split; ring.
    + rewrite (get_one _ _ _ G). assert (sqrt (1 - t_qx d * t_qx d) * sqrt (1 - t_qx d * t_qx d) = 1 - t_qx d * t_qx d) as E by (apply sqrt_sqrt; nra).
      assert (sqrt (1 / 2) * sqrt (1 / 2) = 1 / 2) as E2 by (apply sqrt_sqrt; lra).
      set (z := sqrt (1 / 2)) in *. set (u := sqrt (1 - t_qx d * t_qx d)) in *.
      assert (t_coef d k 1%nat * (- z * u) * (- z * u) = t_coef d k 1%nat * (1 - t_qx d * t_qx d) / 2) as E3 by (replace (t_coef d k 1%nat * (- z * u) * (- z * u)) with (t_coef d k 1%nat * (z * z) * (u * u)) by ring; rewrite E, E2; field).
      rewrite E3. split; field.
  - intros i. cbn [Q_mm Q_pm general]. unfold phase_vecs_get, build_phase_vecs, qmm, qpm. cbn [fst snd]. rewrite !one_term. unfold get_Y_0 in G0. destruct (t_four d) as [|[|f]]; [| |lia]; cbn [Nat.eqb Nat.ltb Nat.leb Nat.add].
    + destruct (get_zero _ _ _ G) as (-> & ->). destruct (get_zero _ _ _ G0) as (-> & ->). rewrite C0. split; ring.
    + rewrite (get_one _ _ _ G), (get_one _ _ _ G0). unfold slant. replace (- t_mu0 d * - t_mu0 d) with (t_mu0 d * t_mu0 d) by ring.
      assert (sqrt (1 / 2) * sqrt (1 / 2) = 1 / 2) as E2 by (apply sqrt_sqrt; lra). set (z := sqrt (1 / 2)) in *. set (u := sqrt (1 - t_qx d * t_qx d)) in *. set (w := sqrt (1 - t_mu0 d * t_mu0 d)) in *.
      assert (t_coef d k 1%nat * (- z * w) * (- z * u) = t_coef d k 1%nat * (u * w) / 2) as E3 by (replace (t_coef d k 1%nat * (- z * w) * (- z * u)) with (t_coef d k 1%nat * (z * z) * (u * w)) by ring; rewrite E2; field).
      rewrite E3. split; field.
Qed.

(** * One layer *)
Definition al (d : deck) (k : nat) : R := -1 / t_qx d + cs d k * pp d k / t_qx d.
Definition be (d : deck) (k : nat) : R := - cs d k * mp d k / t_qx d.
Lemma share_is : forall d k, 0 < t_qx d < 1 -> 0 <= t_omega d k -> share d k = cs d k * (Rabs (pp d k) + Rabs (mp d k)).
Proof.
  intros d k Q W. unfold share, cs, pp, mp. destruct (t_four d =? 0)%nat.
  - set (a := t_coef d k 1%nat * (t_qx d * t_qx d)). assert (Rabs (t_coef d k 1%nat) * (t_qx d * t_qx d) = Rabs a) as ->.
    { unfold a. rewrite Rabs_mult. f_equal. symmetry. apply Rabs_pos_eq. nra. }
    assert (Rabs (1 + a) + Rabs (1 - a) = 2 * Rmax 1 (Rabs a)) as ->; [|field]. unfold Rmax. destruct (Rle_dec 1 (Rabs a)) as [L|L]; revert L; unfold Rabs; destruct (Rcase_abs a); destruct (Rcase_abs (1 + a)); destruct (Rcase_abs (1 - a)); lra.
  - rewrite Rabs_mult. assert (Rabs (1 - t_qx d * t_qx d) = 1 - t_qx d * t_qx d) as -> by (apply Rabs_pos_eq; nra). field.
Qed.
Lemma decay_is : forall d k, 0 < t_qx d < 1 -> decay d k = al d k * al d k - be d k * be d k.
Proof. intros d k Q. unfold decay, al, be, cs, pp, mp. destruct (t_four d =? 0)%nat; field; lra. Qed.
Lemma slopes : forall d k, 0 < t_qx d < 1 -> 0 <= t_omega d k -> share d k < 1 -> al d k + be d k < 0 /\ al d k - be d k < 0.
Proof.
  intros d k Q W Sh. rewrite share_is in Sh by assumption. assert (0 <= cs d k) as C by (unfold cs; destruct (t_four d =? 0)%nat; lra).
  assert (0 < / t_qx d) as I by (apply Rinv_0_lt_compat; lra).
  assert (cs d k * (pp d k - mp d k) < 1 /\ cs d k * (pp d k + mp d k) < 1) as (A & B).
  { pose proof (Rle_abs (pp d k)). pose proof (Rle_abs (mp d k)). pose proof (Rle_abs (- mp d k)) as H1. rewrite Rabs_Ropp in H1. split; nra. }
  split; [replace (al d k + be d k) with ((cs d k * (pp d k - mp d k) - 1) * / t_qx d) by (unfold al, be; field; lra)|replace (al d k - be d k) with ((cs d k * (pp d k + mp d k) - 1) * / t_qx d) by (unfold al, be; field; lra)]; nra.
Qed.
(** What the code finds for a layer *)
Definition wave_of (d : deck) (solar : bool) (k : nat) (w : wave) : Prop :=
  0 < w_nu w /\ w_nu w * w_nu w = al d k * al d k - be d k * be d k /\ w_Xm w = 1 /\ w_Xp w = (w_nu w + (al d k + be d k)) / (w_nu w - (al d k + be d k)) /\
  w_L w = exp (- w_nu w * t_ltau d k) /\ (solar = false -> w_Fp w = 0 /\ w_Fm w = 0) /\
  (solar = true -> let j := t_F0 d / (4 * PI) / t_qx d * t_omega d k * t_btran d k in
    (al d k - t_as0 d k) * w_Fp w - be d k * w_Fm w = - (j * qpm d k) /\ be d k * w_Fp w - (al d k + t_as0 d k) * w_Fm w = j * qmm d k).
Lemma over_ok : forall x y, y <> 0 -> over x y = Answer (x / y).
Proof. intros x y N. unfold over. destruct (Req_EM_T y 0); [contradiction|reflexivity]. Qed.
Lemma root_ok : forall x, 0 <= x -> root x = Answer (sqrt x).
Proof. intros x N. unfold root. destruct (Rlt_dec x 0); [lra|reflexivity]. Qed.
Lemma phases_ok : forall d k, (t_four d <= 1)%nat -> 0 < t_qx d < 1 -> 0 < t_mu0 d <= 1 ->
  phases d (t_coef d k 1%nat) = Answer (pp d k, mp d k, qmm d k, qpm d k, (1 + (if (t_four d =? 0)%nat then 1 else 0)) / 4 / t_qx d).
Proof.
  intros d k F Q M. unfold phases, pp, mp, qmm, qpm, slant. destruct (t_four d =? 0)%nat.
  - rewrite over_ok by lra. cbn [bind]. replace ((1 + 1) / 4) with (1 / 2) by field. reflexivity.
  - rewrite root_ok by nra. cbn [bind]. rewrite root_ok by nra. cbn [bind]. rewrite over_ok by lra. cbn [bind]. replace ((1 + 0) / 4) with (1 / 4) by field. reflexivity.
Qed.
Lemma layer_ok : forall d n_coef solar k, (1 < n_coef)%nat -> (t_four d <= 1)%nat -> 0 < t_qx d < 1 -> 0 < t_mu0 d <= 1 -> 0 <= t_omega d k -> share d k < 1 ->
  (solar = true -> t_as0 d k * t_as0 d k <> decay d k) -> exists w, layer d n_coef solar k = Answer w /\ wave_of d solar k w.
Proof.
  intros d nc solar k NC F Q M W Sh Re. destruct (slopes d k Q W Sh) as (S1 & S2).
  unfold layer, coefficient. destruct (Nat.ltb_spec 1 nc); [|lia]. cbn [bind]. rewrite (phases_ok d k F Q M). cbn [bind]. cbv zeta.
  replace (-1 / t_qx d + (1 + (if (t_four d =? 0)%nat then 1 else 0)) / 4 / t_qx d * t_omega d k * pp d k) with (al d k) by (unfold al, cs; field; lra).
  replace (- ((1 + (if (t_four d =? 0)%nat then 1 else 0)) / 4 / t_qx d) * t_omega d k * mp d k) with (be d k) by (unfold be, cs; field; lra).
  set (a := al d k) in *. set (b := be d k) in *. assert (0 < a * a - b * b) as P by nra. rewrite root_ok by lra. cbn [bind].
  assert (0 < sqrt (a * a - b * b)) as Pn by (apply sqrt_lt_R0; exact P). assert (sqrt (a * a - b * b) * sqrt (a * a - b * b) = a * a - b * b) as Sq by (apply sqrt_sqrt; lra). set (n := sqrt (a * a - b * b)) in *.
  rewrite over_ok by lra. cbn [bind]. destruct solar.
  - assert ((t_as0 d k + a) * (t_as0 d k - a) + b * b <> 0) as N by (specialize (Re eq_refl); rewrite decay_is in Re by exact Q; fold a b in Re; intros E; apply Re; lra).
    rewrite !over_ok by exact N. cbn [bind]. eexists. split; [reflexivity|]. unfold wave_of. cbn [w_nu w_Xp w_Xm w_L w_Fp w_Fm]. fold a b.
    refine (conj Pn (conj Sq (conj eq_refl (conj eq_refl (conj eq_refl (conj _ _)))))); [discriminate|]. intros _. cbv zeta. split; field; refine (conj PI_neq0 (conj _ N)); lra.
  - eexists. split; [reflexivity|]. unfold wave_of. cbn [w_nu w_Xp w_Xm w_L w_Fp w_Fm]. fold a b.
    refine (conj Pn (conj Sq (conj eq_refl (conj eq_refl (conj eq_refl (conj _ _)))))); [intros _; split; reflexivity|discriminate].
Qed.
(** The two solutions without sources *)
Lemma modes : forall a b n X, n * n = a * a - b * b -> n - (a + b) <> 0 -> X = (n + (a + b)) / (n - (a + b)) -> (a - n) * X = - b /\ n + a = - b * X.
Proof.
  intros a b n X E N ->. split.
  - apply (Rmult_eq_reg_r (n - (a + b))); [|exact N]. field_simplify; [|exact N]. nra.
  - apply (Rmult_eq_reg_r (n - (a + b))); [|exact N]. field_simplify; [|exact N]. nra.
Qed.
(** The light described by the amplitudes [v] *)
Definition two_p (d : deck) (ws : nat -> wave) (v : vec) : nat -> beam := fun k _ s =>
  v (2 * k)%nat * w_Xp (ws k) * exp (- w_nu (ws k) * s) + v (2 * k + 1)%nat * w_Xm (ws k) * exp (- w_nu (ws k) * (t_ltau d k - s)) + w_Fp (ws k) * exp (- t_as0 d k * s).
Definition two_m (d : deck) (ws : nat -> wave) (v : vec) : nat -> beam := fun k _ s =>
  - v (2 * k)%nat * w_Xm (ws k) * exp (- w_nu (ws k) * s) - v (2 * k + 1)%nat * w_Xp (ws k) * exp (- w_nu (ws k) * (t_ltau d k - s)) + w_Fm (ws k) * exp (- t_as0 d k * s).
Lemma d_exp : forall a s, derivable_pt_lim (fun s => exp (a * s)) s (a * exp (a * s)).
Proof.
  intros a s. apply (dl_eq _ _ (exp (a * s) * (a * 1))); [|ring].
  apply (derivable_pt_lim_comp (fun s => a * s) exp); [apply (derivable_pt_lim_scal id a s 1), derivable_pt_lim_id|apply derivable_pt_lim_exp].
Qed.
Lemma d_exp_back : forall a t s, derivable_pt_lim (fun s => exp (a * (t - s))) s (- a * exp (a * (t - s))).
Proof.
  intros a t s. apply (dl_eq _ _ (exp (a * (t - s)) * (a * (0 - 1)))); [|ring].
  apply (derivable_pt_lim_comp (fun s => a * (t - s)) exp); [|apply derivable_pt_lim_exp].
  apply (derivable_pt_lim_scal (fun s => t - s) a s (0 - 1)). apply (derivable_pt_lim_minus (fun _ => t) id s 0 1); [apply derivable_pt_lim_const|apply derivable_pt_lim_id].
Qed.
Lemma d_three : forall a b c n k t s, derivable_pt_lim (fun s => a * exp (n * s) + b * exp (n * (t - s)) + c * exp (k * s)) s (a * (n * exp (n * s)) + b * (- n * exp (n * (t - s))) + c * (k * exp (k * s))).
Proof.
  intros a b c n k t s. apply (derivable_pt_lim_plus (fun s => a * exp (n * s) + b * exp (n * (t - s))) (fun s => c * exp (k * s))).
  - apply (derivable_pt_lim_plus (fun s => a * exp (n * s)) (fun s => b * exp (n * (t - s)))); [apply (derivable_pt_lim_scal (fun s => exp (n * s))), d_exp|apply (derivable_pt_lim_scal (fun s => exp (n * (t - s)))), d_exp_back].
  - apply (derivable_pt_lim_scal (fun s => exp (k * s))), d_exp.
Qed.

Section Field.
Variable d : deck.
Variables (m : nat) (solar : bool) (g : ground).
Variable xs : nat -> slab.
Hypothesis See : sees d xs.
Hypothesis T : tame d m solar g.
Lemma four_ok : (t_four d <= 1)%nat. Proof. apply T. Qed.
Lemma qx_ok : 0 < t_qx d < 1. Proof. apply T. Qed.
Lemma mu0_ok : 0 < t_mu0 d <= 1. Proof. apply T. Qed.
Lemma each_ok : forall k, (k <= m)%nat -> t_coef d k 0%nat = 1 /\ 0 <= t_omega d k /\ 0 <= t_ltau d k /\ share d k < 1. Proof. apply T. Qed.
Lemma beam_ok : solar = true -> forall k, (k <= m)%nat -> t_as0 d k <> 0 /\ t_as0 d k * t_as0 d k <> decay d k /\ t_atran d k = exp (- t_as0 d k * t_ltau d k). Proof. apply T. Qed.
Lemma ground_ok : forall r r0, g = Some (r, r0) -> r * r <= 1. Proof. apply T. Qed.

Lemma layers_found : forall n_coef, (1 < n_coef)%nat -> forall K, (K <= S m)%nat -> exists ws, layers d n_coef solar K = Answer ws /\ forall k, (k < K)%nat -> wave_of d solar k (ws k).
Proof.
  intros n_coef NC. induction K as [|K IH]; intros HK; [eexists; split; [reflexivity|intros; lia]|]. destruct (IH ltac:(lia)) as (ws & E & H). cbn [layers]. rewrite E. cbn [bind].
  destruct (each_ok K ltac:(lia)) as (_ & W & _ & Sh).
  destruct (layer_ok d n_coef solar K NC four_ok qx_ok mu0_ok W Sh) as (w & Ew & Hw); [intros So; apply (beam_ok So K); lia|].
  rewrite Ew. cbn [bind]. eexists. split; [reflexivity|]. intros k Hk. cbv beta. destruct (Nat.eqb_spec k K) as [->|NE]; [exact Hw|apply H; lia].
Qed.
(** The sources of the equation of transfer *)
Lemma sources : forall k (Q : vec) q s, (k <= m)%nat -> (forall i, Q i = q) -> source solar false (omega (xs k)) (flux0 (xs k)) (btran (xs k)) (as_0 (xs k)) (planck0 (xs k)) (planck1 (xs k)) (ltau (xs k)) Q 0%nat s
  = if solar then t_F0 d / (4 * PI) * t_omega d k * q * (t_btran d k * exp (- t_as0 d k * s)) else 0.
Proof.
  intros k Q q s Hk HQ. destruct (each_ok k Hk) as (C0 & _). destruct (seen d xs k See four_ok qx_ok mu0_ok C0) as (_ & _ & _ & _ & -> & -> & -> & -> & _ & -> & _). unfold source. rewrite HQ. destruct solar; ring.
Qed.
(** Whatever the amplitudes, the light obeys the equation in every layer. *)
Lemma obeys : forall ws v k, (k <= m)%nat -> wave_of d solar k (ws k) -> lit 1 solar false (xs k) (two_p d ws v k) (two_m d ws v k).
Proof.
  intros ws v k Hk (Pn & Sq & Xm1 & XpE & _ & Fz & Fe). destruct (each_ok k Hk) as (C0 & W & Lt & Sh). destruct (slopes d k qx_ok W Sh) as (S1 & S2). pose proof qx_ok as Q.
  destruct (seen d xs k See four_ok qx_ok mu0_ok C0) as (HP & HQ & Hq & Hz & _ & Ho & _).
  intros i s Hi Hs. assert (i = 0%nat) as -> by lia. destruct (Hq 0%nat) as (-> & _). rewrite (sources k _ (qpm d k) s Hk (fun i => proj2 (HQ i))), (sources k _ (qmm d k) s Hk (fun i => proj1 (HQ i))).
  unfold scattered. cbn [total]. destruct (HP 0%nat 0%nat) as (-> & ->). destruct (Hq 0%nat) as (_ & ->). rewrite Hz, Ho. fold (cs d k).
  destruct (modes (al d k) (be d k) (w_nu (ws k)) (w_Xp (ws k)) Sq ltac:(lra) XpE) as (M1 & M2).
  assert (forall x y z, (x - cs d k * (0 + 1 * (pp d k * x + mp d k * y)) - z) / t_qx d = - al d k * x + be d k * y - z / t_qx d) as U by (intros; unfold al, be; field; lra).
  assert (forall x y z, (cs d k * (0 + 1 * (pp d k * x + mp d k * y)) + z - x) / t_qx d = al d k * x - be d k * y + z / t_qx d) as D by (intros; unfold al, be; field; lra).
  rewrite U, D. clear U D.
  assert (exists j, (if solar then t_F0 d / (4 * PI) * t_omega d k * qpm d k * (t_btran d k * exp (- t_as0 d k * s)) else 0) / t_qx d = j * qpm d k * exp (- t_as0 d k * s) /\
    (if solar then t_F0 d / (4 * PI) * t_omega d k * qmm d k * (t_btran d k * exp (- t_as0 d k * s)) else 0) / t_qx d = j * qmm d k * exp (- t_as0 d k * s) /\
    (al d k - t_as0 d k) * w_Fp (ws k) - be d k * w_Fm (ws k) = - (j * qpm d k) /\ be d k * w_Fp (ws k) - (al d k + t_as0 d k) * w_Fm (ws k) = j * qmm d k) as (j & J1 & J2 & J3 & J4).
  { destruct solar eqn:So.
    - specialize (Fe eq_refl). cbv zeta in Fe. exists (t_F0 d / (4 * PI) / t_qx d * t_omega d k * t_btran d k). refine (conj _ (conj _ Fe)); field; (split; first [apply PI_neq0|lra]).
    - destruct (Fz eq_refl) as (-> & ->). exists 0. refine (conj _ (conj _ (conj _ _))); unfold Rdiv; ring. }
  rewrite J1, J2. unfold two_p, two_m. rewrite Xm1. split.
  - eapply dl_eq; [apply d_three|]. set (E1 := exp _). set (E2 := exp _). set (E3 := exp _). set (x1 := v _). set (x2 := v _).
    replace (- al d k * (x1 * w_Xp (ws k) * E1 + x2 * 1 * E2 + w_Fp (ws k) * E3) + be d k * (- x1 * 1 * E1 - x2 * w_Xp (ws k) * E2 + w_Fm (ws k) * E3) - j * qpm d k * E3)
      with (x1 * E1 * (- (al d k * w_Xp (ws k)) - be d k) - x2 * E2 * (al d k - (- be d k * w_Xp (ws k))) - E3 * (al d k * w_Fp (ws k) - be d k * w_Fm (ws k) + j * qpm d k)) by ring.
    rewrite <- M2. assert (al d k * w_Xp (ws k) = w_nu (ws k) * w_Xp (ws k) - be d k) as -> by lra. assert (al d k * w_Fp (ws k) - be d k * w_Fm (ws k) + j * qpm d k = t_as0 d k * w_Fp (ws k)) as -> by lra. ring.
  - eapply dl_eq.
    + apply (BrdfTheorems.dl_same (fun s => (- v (2 * k)%nat * 1) * exp (- w_nu (ws k) * s) + (- v (2 * k + 1)%nat * w_Xp (ws k)) * exp (- w_nu (ws k) * (t_ltau d k - s)) + w_Fm (ws k) * exp (- t_as0 d k * s))); [intros; ring|apply d_three].
    + set (E1 := exp _). set (E2 := exp _). set (E3 := exp _). set (x1 := v _). set (x2 := v _).
      replace (al d k * (- x1 * 1 * E1 - x2 * w_Xp (ws k) * E2 + w_Fm (ws k) * E3) - be d k * (x1 * w_Xp (ws k) * E1 + x2 * 1 * E2 + w_Fp (ws k) * E3) + j * qmm d k * E3)
        with (x1 * E1 * (- be d k * w_Xp (ws k) - al d k) - x2 * E2 * (al d k * w_Xp (ws k) + be d k) + E3 * (al d k * w_Fm (ws k) - be d k * w_Fp (ws k) + j * qmm d k)) by ring.
      rewrite <- M2. assert (al d k * w_Xp (ws k) = w_nu (ws k) * w_Xp (ws k) - be d k) as -> by lra. assert (al d k * w_Fm (ws k) - be d k * w_Fp (ws k) + j * qmm d k = - t_as0 d k * w_Fm (ws k)) as -> by lra. ring.
Qed.
(** The light at the ends of a layer *)
Lemma ends_of : forall ws v k, (k <= m)%nat -> wave_of d solar k (ws k) ->
  two_p d ws v k 0%nat 0 = up0 ws v k + w_Fp (ws k) /\ two_m d ws v k 0%nat 0 = dn0 ws v k + w_Fm (ws k) /\
  two_p d ws v k 0%nat (t_ltau d k) = upL ws v k + Fp1 d ws k /\ two_m d ws v k 0%nat (t_ltau d k) = dnL ws v k + Fm1 d ws k.
Proof.
  intros ws v k Hk (Pn & Sq & Xm1 & XpE & La & Fz & Fe). unfold two_p, two_m, up0, dn0, upL, dnL, Fp1, Fm1. rewrite La.
  assert (w_Fp (ws k) * exp (- t_as0 d k * t_ltau d k) = w_Fp (ws k) * t_atran d k /\ w_Fm (ws k) * exp (- t_as0 d k * t_ltau d k) = w_Fm (ws k) * t_atran d k) as (-> & ->).
  { pose proof beam_ok as B. destruct solar; [|destruct (Fz eq_refl) as (-> & ->); split; ring]. destruct (B eq_refl k Hk) as (_ & _ & ->). split; reflexivity. }
  rewrite !Rmult_0_r, Rminus_0_r, exp_0. replace (t_ltau d k - t_ltau d k) with 0 by ring. rewrite !Rmult_0_r, exp_0. repeat (split; [ring|]). ring.
Qed.
(** If the amplitudes solve the system, the light is that of the atmosphere. *)
Lemma solves_light : forall ws v a, (forall k, (k <= m)%nat -> wave_of d solar k (ws k)) -> matrix m g ws = Answer a ->
  (forall r, (r < order m)%nat -> mv (order m) a v r = rhs d solar m g ws r) ->
  atmosphere 1 m solar false xs (reflector (reflection g)) zvec (constant (glint d solar m g)) (two_p d ws v) (two_m d ws v).
Proof.
  intros ws v a H E Ro. destruct (matrix_done m g ws) as (a' & E' & D). rewrite E in E'. injection E' as <-.
  assert (forall k, (k <= m)%nat -> ltau (xs k) = t_ltau d k) as LT.
  { intros k Hk. destruct (each_ok k Hk) as (C0 & _). apply (seen d xs k See four_ok qx_ok mu0_ok C0). }
  assert (rhs d solar m g ws 0%nat = - w_Fm (ws 0%nat) /\
    (forall k, (k < m)%nat -> rhs d solar m g ws (2 * k + 1)%nat = w_Fp (ws (S k)) - Fp1 d ws k /\ rhs d solar m g ws (2 * k + 2)%nat = w_Fm (ws (S k)) - Fm1 d ws k) /\
    rhs d solar m g ws (2 * m + 1)%nat = glint d solar m g + albedo g * Fm1 d ws m - Fp1 d ws m) as (R0 & RK & RL).
  { clear Ro. destruct solar; [apply rhs_rows; discriminate|]. unfold rhs. pose proof (fun k Hk => match H k Hk with conj _ (conj _ (conj _ (conj _ (conj _ (conj F _))))) => F eq_refl end) as Z. unfold Fp1, Fm1, zvec, glint.
    refine (conj _ (conj _ _)); [destruct (Z 0%nat ltac:(lia)) as (_ & ->); ring| |destruct (Z m ltac:(lia)) as (-> & ->); destruct g as [(r & r0)|]; ring].
    intros k Hk. destruct (Z k ltac:(lia)) as (-> & ->). destruct (Z (S k) ltac:(lia)) as (-> & ->). split; ring. }
  split; [refine (conj _ (conj _ _))|].
  - intros k Hk. apply obeys; [exact Hk|apply H; exact Hk].
  - intros k i Hk Hi. assert (i = 0%nat) as -> by lia. rewrite LT by lia. destruct (ends_of ws v k ltac:(lia) (H k ltac:(lia))) as (_ & _ & -> & ->). destruct (ends_of ws v (S k) ltac:(lia) (H (S k) ltac:(lia))) as (-> & -> & _).
    destruct (RK k Hk) as (R1 & R2). rewrite <- (Ro (2 * k + 1)%nat) in R1 by (unfold order; lia). rewrite <- (Ro (2 * k + 2)%nat) in R2 by (unfold order; lia). rewrite (row_up m g ws a v k D Hk) in R1. rewrite (row_down m g ws a v k D Hk) in R2. split; lra.
  - intros i Hi. assert (i = 0%nat) as -> by lia. destruct (ends_of ws v 0 ltac:(lia) (H 0%nat ltac:(lia))) as (_ & -> & _). rewrite <- (Ro 0%nat) in R0 by (unfold order; lia). rewrite (row_top m g ws a v D) in R0. unfold zvec. lra.
  - intros i Hi. assert (i = 0%nat) as -> by lia. rewrite LT by lia. cbn [total]. destruct (ends_of ws v m ltac:(lia) (H m ltac:(lia))) as (_ & _ & -> & ->). rewrite <- (Ro (2 * m + 1)%nat) in RL by (unfold order; lia). rewrite (row_last m g ws a v D) in RL.
    unfold constant. assert (reflector (reflection g) 0%nat 0%nat = albedo g) as -> by (unfold albedo; destruct g as [(r & r0)|]; reflexivity). lra.
Qed.
End Field.

(** * The conditions of the general theorems hold. *)
Lemma ident_one : nonsingular 1 ident.
Proof. exists ident. split; intros i j Hi Hj; assert (i = 0%nat) as -> by lia; assert (j = 0%nat) as -> by lia; cbn; ring. Qed.
Section Conditions.
Variable d : deck.
Variables (m : nat) (solar : bool) (g : ground).
Variable xs : nat -> slab.
Hypothesis See : sees d xs.
Hypothesis T : tame d m solar g.
Lemma inputs : forall k, (k <= m)%nat -> layer_inputs 1 false solar false (xs k).
Proof.
  intros k Hk. destruct (each_ok d m solar g T k Hk) as (C0 & W & Lt & Sh). pose proof (qx_ok d m solar g T) as Q.
  destruct (seen d xs k See (four_ok d m solar g T) Q (mu0_ok d m solar g T) C0) as (HP & HQ & Hq & Hz & _ & Ho & Hl & Ha & Hat & _).
  unfold layer_inputs. rewrite factor_is, Hz, Ho. fold (cs d k). refine (conj (conj _ (conj _ _)) (conj _ (conj _ (conj _ (conj _ _))))).
  - intros i Hi. destruct (Hq i) as (-> & ->). lra.
  - intros i j Hi Hj. destruct (HP i j) as (-> & ->). destruct (HP j i) as (-> & ->). split; reflexivity.
  - intros i Hi _. cbn [total]. destruct (HP i 0%nat) as (-> & ->). destruct (Hq 0%nat) as (_ & ->). rewrite share_is in Sh by assumption.
    assert (0 <= cs d k) as C by (unfold cs; destruct (t_four d =? 0)%nat; lra). rewrite (Rabs_pos_eq (cs d k) C). lra.
  - rewrite Hl. exact Lt.
  - discriminate.
  - intros _. match goal with |- separable 1 ?a ?b ?c ?e ?f => set (M := second_order 1 a b c e f) end. exists (fun _ => M 0%nat 0%nat, ident). split; [apply ident_one|].
    intros i j Hi Hj. assert (i = 0%nat) as -> by lia. assert (j = 0%nat) as -> by lia. unfold M. cbn [total fst snd ident]. unfold ident. cbn [Nat.eqb]. ring.
  - intros So. rewrite Ha, Hat, Hl. destruct (beam_ok d m solar g T So k Hk) as (A1 & A2 & A3). refine (conj A1 (conj _ A3)).
    intros a b H i Hi. assert (i = 0%nat) as -> by lia. destruct (H 0 0%nat 0 Hi ltac:(lra)) as (H1 & H2). clear H. unfold scattered in H1, H2. cbn [total] in H1, H2.
    destruct (HP 0%nat 0%nat) as (E1 & E2). destruct (Hq 0%nat) as (E3 & E4). rewrite E1, E2, E3, E4 in H1, H2. rewrite Rmult_0_r, exp_0 in H1, H2.
    assert (derivable_pt_lim (fun t => a 0%nat * exp (- t_as0 d k * t)) 0 (a 0%nat * (- t_as0 d k * exp (- t_as0 d k * 0)))) as D1 by apply (derivable_pt_lim_scal (fun t => exp (- t_as0 d k * t))), d_exp.
    assert (derivable_pt_lim (fun t => b 0%nat * exp (- t_as0 d k * t)) 0 (b 0%nat * (- t_as0 d k * exp (- t_as0 d k * 0)))) as D2 by apply (derivable_pt_lim_scal (fun t => exp (- t_as0 d k * t))), d_exp.
    pose proof (uniqueness_limite _ _ _ _ H1 D1) as U1. pose proof (uniqueness_limite _ _ _ _ H2 D2) as U2. rewrite Rmult_0_r, exp_0 in U1, U2.
    set (x := a 0%nat) in *. set (y := b 0%nat) in *. rewrite decay_is in A2 by exact Q.
    assert ((al d k - t_as0 d k) * x = be d k * y) as V1.
    { replace (al d k * x) with (- ((x * 1 - cs d k * (0 + 1 * (pp d k * (x * 1) + mp d k * (y * 1))) - 0) / t_qx d) + be d k * y) in * by (unfold al, be; field; lra).
      rewrite Rmult_minus_distr_r. replace (al d k * x) with (- ((x * 1 - cs d k * (0 + 1 * (pp d k * (x * 1) + mp d k * (y * 1))) - 0) / t_qx d) + be d k * y) by (unfold al, be; field; lra). rewrite U1. ring. }
    assert ((al d k + t_as0 d k) * y = be d k * x) as V2.
    { rewrite Rmult_plus_distr_r. replace (al d k * y) with ((cs d k * (0 + 1 * (pp d k * (y * 1) + mp d k * (x * 1))) + 0 - y * 1) / t_qx d + be d k * x) by (unfold al, be; field; lra). rewrite U2. ring. }
    assert (t_as0 d k * t_as0 d k - (al d k * al d k - be d k * be d k) <> 0) as N by lra. split.
    + apply (Rmult_eq_reg_l (t_as0 d k * t_as0 d k - (al d k * al d k - be d k * be d k))); [|exact N].
      replace ((t_as0 d k * t_as0 d k - (al d k * al d k - be d k * be d k)) * x) with (- (al d k + t_as0 d k) * ((al d k - t_as0 d k) * x) + be d k * (be d k * x)) by ring. rewrite V1, <- V2. ring.
    + apply (Rmult_eq_reg_l (t_as0 d k * t_as0 d k - (al d k * al d k - be d k * be d k))); [|exact N].
      replace ((t_as0 d k * t_as0 d k - (al d k * al d k - be d k * be d k)) * y) with (- (al d k - t_as0 d k) * ((al d k + t_as0 d k) * y) + be d k * (be d k * y)) by ring. rewrite V2, <- V1. ring.
  - discriminate.
Qed.
Lemma is_sound : sound 1 m solar false xs (reflection g).
Proof.
  split.
  - intros k Hk. refine (conj (inputs k Hk) _). destruct (each_ok d m solar g T k Hk) as (C0 & _).
    destruct (seen d xs k See (four_ok d m solar g T) (qx_ok d m solar g T) (mu0_ok d m solar g T) C0) as (_ & _ & _ & _ & _ & _ & _ & _ & _ & _ & E). exact E.
  - intros v. unfold power. cbn [total]. unfold weights. destruct See as (y & y0 & Y & Y0 & _ & _ & ->). cbn [qw qx general]. unfold constant. pose proof (qx_ok d m solar g T) as Q.
    pose proof (ground_ok d m solar g T) as G. destruct g as [(r & r0)|]; cbn [reflection reflector].
    + specialize (G r r0 eq_refl). assert (0 <= v 0%nat * v 0%nat) by nra. assert (0 <= t_qx d * (v 0%nat * v 0%nat)) as A by nra. assert (0 <= t_qx d * (v 0%nat * v 0%nat) * (1 - r * r)) by (apply Rmult_le_pos; [exact A|lra]). lra.
    + unfold zmat. nra.
Qed.
End Conditions.
(** The conditions do not depend on the beam for the equation without it. *)
Lemma tame_dark : forall d m solar g, tame d m solar g -> tame d m false g.
Proof. intros d m solar g (T1 & T2 & T3 & T4 & _ & T6). refine (conj T1 (conj T2 (conj T3 (conj T4 (conj _ T6))))). discriminate. Qed.
Definition unlit (w : wave) : wave := {| w_nu := w_nu w; w_Xp := w_Xp w; w_Xm := w_Xm w; w_L := w_L w; w_Fp := 0; w_Fm := 0 |}.
Lemma wave_unlit : forall d solar k w, wave_of d solar k w -> wave_of d false k (unlit w).
Proof. intros d solar k w (A & B & C & D & E & _). unfold wave_of, unlit. cbn [w_nu w_Xp w_Xm w_L w_Fp w_Fm]. refine (conj A (conj B (conj C (conj D (conj E (conj _ _)))))); [intros _; split; reflexivity|discriminate]. Qed.
Lemma matrix_unlit : forall m g ws, matrix m g (fun k => unlit (ws k)) = matrix m g ws.
Proof. reflexivity. Qed.
