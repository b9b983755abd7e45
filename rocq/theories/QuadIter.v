(** The iteration of gauss_leg_point. *)
From Coq Require Import Reals Bool Lra Lia Arith.
From Verif Require Import DeltaMSpec DeltaMProofs DeltaMModel DerivsModel EigDModel ScatSpec ScatProofs QuadSpec QuadModel QuadProofs QuadRoots QuadExact.
Open Scope R_scope.

Lemma polys_legendre : forall n y, polys (S n) y = (P (S n) y, P n y).
Proof.
  induction n; intros y.
  - unfold polys. cbn. f_equal. field.
  - unfold polys in *. rewrite loop_S, IHn. cbv zeta. f_equal. pose proof (pos_INR n).
    apply (Rmult_eq_reg_l (INR n + 2)); [|lra]. rewrite step, S_INR. field. lra.
Qed.
Definition d2P (l : nat) (x : R) : R := (2 * x * dP (S l) x - (INR l + 1) * (INR l + 2) * P (S l) x) / (1 - x * x).
Lemma step_inside : forall m y, -1 < y < 1 -> dP (S m) y <> 0 ->
  point_step (S m) (S m * (S m + 1)) y = Some (chebyshev_step (P (S m) y) (dP (S m) y) (d2P m y) y, P m y).
Proof.
  intros m y Y D. unfold point_step. rewrite polys_legendre. cbv zeta.
  assert (1 - y * y <> 0) as NZ by nra.
  destruct (Req_EM_T (1 - y * y) 0) as [|_]; [contradiction|].
  assert (INR (S m) * (P m y - y * P (S m) y) / (1 - y * y) = dP (S m) y) as E.
  { rewrite S_INR, <- dP_formula. field. exact NZ. }
  rewrite E. destruct (Req_EM_T (dP (S m) y) 0) as [|_]; [contradiction|].
  f_equal. f_equal. unfold chebyshev_step, d2P. rewrite mult_INR, plus_INR, !S_INR. cbn [INR]. field. split; assumption.
Qed.
Lemma root_derivative : forall m r, P (S m) r = 0 -> dP (S m) r <> 0.
Proof.
  intros m r E Z. pose proof (confluent m r) as C. rewrite E, Z in C. pose proof (K_positive m r). lra.
Qed.
(** The derivative of the step at a root is 0 *)
Definition g (m : nat) (y : R) : R := chebyshev_step (P (S m) y) (dP (S m) y) (d2P m y) y.
Lemma g_flat : forall m r, P (S m) r = 0 -> derivable_pt_lim (g m) r 0.
Proof.
  intros m r E. pose proof (root_inside _ _ E) as IN. pose proof (root_derivative m r E) as D.
  set (u := fun y => P (S m) y / dP (S m) y).
  assert (derivable_pt_lim u r 1) as U.
  { apply (deq (fun y => P (S m) y / dP (S m) y) _ _ ((dP (S m) r * dP (S m) r - d2P m r * P (S m) r) / Rsqr (dP (S m) r))).
    - reflexivity.
    - rewrite E. unfold Rsqr. field. exact D.
    - apply (derivable_pt_lim_div (P (S m)) (dP (S m))); [apply P_derivative|apply dP_derivative; exact IN|exact D]. }
  assert (exists l, derivable_pt_lim (fun y => d2P m y / (2 * dP (S m) y)) r l) as (l & V).
  { assert (1 - r * r <> 0) as NZ by nra. eexists.
    apply (derivable_pt_lim_div (d2P m) (fun y => 2 * dP (S m) y)).
    - unfold d2P.
      apply (derivable_pt_lim_div (fun x => 2 * x * dP (S m) x - (INR m + 1) * (INR m + 2) * P (S m) x) (fun x => 1 - x * x)); [| |exact NZ].
      + apply (derivable_pt_lim_minus (fun x => 2 * x * dP (S m) x) (fun x => (INR m + 1) * (INR m + 2) * P (S m) x)).
        * apply (derivable_pt_lim_mult (fun x => 2 * x) (dP (S m))); [apply (derivable_pt_lim_scal (fun x => x)), derivable_pt_lim_id|apply dP_derivative; exact IN].
        * apply (derivable_pt_lim_scal (P (S m))), P_derivative.
      + apply (derivable_pt_lim_minus (fun _ => 1) (fun y => y * y)); [apply derivable_pt_lim_const|].
        apply (derivable_pt_lim_mult (fun y => y) (fun y => y)); apply derivable_pt_lim_id.
    - apply (derivable_pt_lim_scal (dP (S m))), dP_derivative. exact IN.
    - lra. }
  assert (u r = 0) as UR by (unfold u; rewrite E; unfold Rdiv; ring).
  apply (deq (fun y => (y - u y) - (u y * u y) * (d2P m y / (2 * dP (S m) y))) _ _
             ((1 - 1) - ((1 * u r + u r * 1) * (d2P m r / (2 * dP (S m) r)) + (u r * u r) * l))).
  - intros y. unfold g, chebyshev_step, u, Rdiv. ring.
  - rewrite UR. ring.
  - apply (derivable_pt_lim_minus (fun y => y - u y) (fun y => (u y * u y) * (d2P m y / (2 * dP (S m) y)))).
    + apply (derivable_pt_lim_minus (fun y => y) u); [apply derivable_pt_lim_id|exact U].
    + apply (derivable_pt_lim_mult (fun y => u y * u y) (fun y => d2P m y / (2 * dP (S m) y))); [|exact V].
      apply (derivable_pt_lim_mult u u); exact U.
Qed.
Lemma g_root : forall m r, P (S m) r = 0 -> g m r = r.
Proof. intros m r E. unfold g, chebyshev_step. rewrite E. unfold Rdiv. ring. Qed.

(** Around a root the step halves the distance *)
Lemma basin : forall m r, P (S m) r = 0 -> exists d, 0 < d /\
  forall y, Rabs (y - r) < d -> -1 < y < 1 /\ dP (S m) y <> 0 /\ Rabs (g m y - r) <= / 2 * Rabs (y - r).
Proof.
  intros m r E. pose proof (root_inside _ _ E) as IN. pose proof (root_derivative m r E) as D.
  destruct (g_flat m r E (/ 2) ltac:(lra)) as (d1 & H1).
  assert (0 < Rabs (dP (S m) r)) as AD by (apply Rabs_pos_lt; exact D).
  assert (continuity_pt (dP (S m)) r) as CO.
  { apply derivable_continuous_pt. exists (d2P m r). apply dP_derivative. exact IN. }
  destruct (CO _ AD) as (d2 & D2 & H2).
  exists (Rmin (Rmin d1 d2) (Rmin (1 - r) (r + 1))).
  assert (0 < Rmin (Rmin d1 d2) (Rmin (1 - r) (r + 1))) as MP.
  { apply Rmin_glb_lt; apply Rmin_glb_lt; try lra. apply cond_pos. }
  split; [exact MP|]. intros y Y.
  assert (Rabs (y - r) < d1 /\ Rabs (y - r) < d2 /\ Rabs (y - r) < 1 - r /\ Rabs (y - r) < r + 1) as (A & B & C & F).
  { refine (conj _ (conj _ (conj _ _))); eapply Rlt_le_trans; try exact Y.
    - eapply Rle_trans; [apply Rmin_l|apply Rmin_l].
    - eapply Rle_trans; [apply Rmin_l|apply Rmin_r].
    - eapply Rle_trans; [apply Rmin_r|apply Rmin_l].
    - eapply Rle_trans; [apply Rmin_r|apply Rmin_r]. }
  split; [unfold Rabs in C, F; destruct (Rcase_abs (y - r)); lra|].
  destruct (Req_dec y r) as [->|NE].
  { split; [exact D|]. rewrite g_root by exact E. rewrite Rminus_diag_eq by reflexivity. rewrite Rabs_R0. lra. }
  split.
  - intros Z. specialize (H2 y). assert (D_x no_cond r y /\ dist R_met y r < d2) as HH.
    { split; [split; [exact I|intros Q; apply NE; symmetry; exact Q]|exact B]. }
    specialize (H2 HH). change (Rabs (dP (S m) y - dP (S m) r) < Rabs (dP (S m) r)) in H2. rewrite Z in H2. replace (0 - dP (S m) r) with (- dP (S m) r) in H2 by ring. rewrite Rabs_Ropp in H2. lra.
  - specialize (H1 (y - r) ltac:(lra) A). replace (r + (y - r)) with y in H1 by ring. rewrite (g_root m r E) in H1.
    unfold Rdiv in H1. rewrite Rminus_0_r, Rabs_mult, Rabs_inv in H1.
    assert (0 < Rabs (y - r)) by (apply Rabs_pos_lt; lra).
    apply (Rmult_le_reg_r (/ Rabs (y - r))); [apply Rinv_0_lt_compat; assumption|].
    rewrite Rmult_assoc, Rinv_r by lra. lra.
Qed.
Lemma halving : forall c e, 0 < e -> exists k, (/ 2) ^ k * c <= e.
Proof.
  intros c e He. destruct (pow_lt_1_zero (/ 2) ltac:(rewrite Rabs_right; lra) (e / (Rabs c + 1))) as (N & H).
  - apply Rdiv_lt_0_compat; [exact He|]. pose proof (Rabs_pos c). lra.
  - exists N. specialize (H N (Nat.le_refl N)). pose proof (Rabs_pos c).
    assert (0 < (/ 2) ^ N) by (apply pow_lt; lra). rewrite Rabs_right in H by lra.
    assert ((/ 2) ^ N * (Rabs c + 1) < e).
    { apply (Rmult_lt_reg_r (/ (Rabs c + 1))); [apply Rinv_0_lt_compat; lra|]. rewrite Rmult_assoc, Rinv_r by lra. rewrite Rmult_1_r. exact H. }
    pose proof (Rle_abs c).
    assert ((/ 2) ^ N * c <= (/ 2) ^ N * (Rabs c + 1)) by (apply Rmult_le_compat_l; lra). lra.
Qed.
Lemma dbl_epsilon_pos : 0 < dbl_epsilon.
Proof. unfold dbl_epsilon. apply Rinv_0_lt_compat. lra. Qed.
Lemma converges : forall m r, P (S m) r = 0 -> exists d, 0 < d /\ forall y, Rabs (y - r) < d -> exists fuel y' z,
  point_loop fuel (S m) (S m * (S m + 1)) y = Found y' (P m z) /\ Rabs (y' - r) <= dbl_epsilon /\ Rabs (z - r) <= 2 * dbl_epsilon.
Proof.
  intros m r E. destruct (basin m r E) as (d & DP & B). exists d. split; [exact DP|].
  pose proof dbl_epsilon_pos as EP.
  destruct (halving d (dbl_epsilon / 2) ltac:(lra)) as (k & K).
  enough (forall k y, Rabs (y - r) < d -> (/ 2) ^ k * Rabs (y - r) <= dbl_epsilon / 2 -> exists fuel y' z,
    point_loop fuel (S m) (S m * (S m + 1)) y = Found y' (P m z) /\ Rabs (y' - r) <= dbl_epsilon /\ Rabs (z - r) <= 2 * dbl_epsilon) as H.
  { intros y Y. apply (H k y Y). eapply Rle_trans; [|exact K]. apply Rmult_le_compat_l; [left; apply pow_lt; lra|lra]. }
  clear k K. induction k as [|k IH]; intros y Y K; destruct (B y Y) as (IN & D & G).
  - exists 1%nat, (g m y), y. cbn [pow] in K. cbn [point_loop]. rewrite (step_inside m y IN D). fold (g m y).
    pose proof (Rabs_triang (g m y - r) (r - y)) as T. replace (g m y - r + (r - y)) with (g m y - y) in T by ring.
    rewrite (Rabs_minus_sym r y) in T.
    destruct (Rlt_dec dbl_epsilon (Rabs (g m y - y))) as [L|_]; [lra|]. refine (conj eq_refl (conj _ _)); lra.
  - destruct (Rlt_dec dbl_epsilon (Rabs (g m y - y))) as [L|L] eqn:EL.
    + pose proof (Rabs_pos (y - r)).
      destruct (IH (g m y)) as (fuel & y' & z & R1 & R2). { lra. }
      { eapply Rle_trans; [|exact K]. cbn [pow]. rewrite (Rmult_comm (/ 2)), Rmult_assoc. apply Rmult_le_compat_l; [left; apply pow_lt; lra|exact G]. }
      exists (S fuel), y', z. cbn [point_loop]. rewrite (step_inside m y IN D). fold (g m y). rewrite EL. split; assumption.
    + exists 1%nat, (g m y), y. cbn [point_loop]. rewrite (step_inside m y IN D). fold (g m y). rewrite EL.
      pose proof (Rabs_triang (y - g m y) (g m y - r)) as T. replace (y - g m y + (g m y - r)) with (y - r) in T by ring.
      rewrite (Rabs_minus_sym y (g m y)) in T. refine (conj eq_refl (conj _ _)); lra.
Qed.
Lemma root_ends : forall m r f, P (S m) r = 0 -> point_loop (S f) (S m) (S m * (S m + 1)) r = Found r (P m r).
Proof.
  intros m r f E. cbn [point_loop]. rewrite (step_inside m r (root_inside _ _ E) (root_derivative m r E)). fold (g m r). rewrite (g_root m r E).
  rewrite Rminus_diag_eq by reflexivity. rewrite Rabs_R0. pose proof dbl_epsilon_pos.
  destruct (Rlt_dec dbl_epsilon 0); [lra|reflexivity].
Qed.
