(** C53: the quadratures. *)
From Coq Require Import Reals Bool Lra Lia Arith.
From Verif Require Import DeltaMSpec DeltaMProofs DeltaMModel DerivsModel EigDModel ScatSpec ScatProofs EigProofs AddingDeriv QuadSpec QuadModel QuadProofs QuadRoots QuadExact QuadIter.
Open Scope R_scope.

(** * The points *)
(** Every Legendre polynomial has as many roots as its degree, they lie inside of (-1, 1), and there is no other list of them. *)
Theorem C53_roots : forall n, exists r, legendre_roots n r /\ (forall i, (i < n)%nat -> -1 < r i < 1) /\
  (forall s, legendre_roots n s -> forall i, (i < n)%nat -> s i = r i) /\ (forall z, (0 < n)%nat -> legendre n z = 0 -> exists i, (i < n)%nat /\ z = r i).
Proof.
  intros n. destruct (legendre_roots_exist n) as (r & H). exists r. refine (conj H (conj _ (conj _ _))).
  - intros i Hi. apply (root_inside n), H, Hi.
  - intros s Hs. apply legendre_roots_unique; assumption.
  - intros z Hn Z. destruct n as [|m]; [lia|]. destruct H as (RO & DE). exact (all_roots m r RO (decreasing_distinct _ _ DE) z Z).
Qed.
(** One pass of the loop is one step of Chebyshev's iteration on the Legendre polynomial, and leaves the value of the one before. *)
Theorem C53_iteration : forall n y d1 d2 d1', (0 < n)%nat -> -1 < y < 1 -> derivable_pt_lim (legendre n) y d1 -> d1 <> 0 ->
  (forall z, -1 < z < 1 -> derivable_pt_lim (legendre n) z (d1' z)) -> derivable_pt_lim d1' y d2 ->
  point_step n (n * (n + 1)) y = Some (chebyshev_step (legendre n y) d1 d2 y, legendre (n - 1) y).
Proof.
  intros n y d1 d2 d1' Hn Y D NZ DD D2. destruct n as [|m]; [lia|]. replace (S m - 1)%nat with m by lia.
  assert (d1 = dP (S m) y) as -> by (apply (uniqueness_limite (legendre (S m)) y); [exact D|apply P_derivative]).
  rewrite (step_inside m y Y NZ). f_equal. f_equal.
  enough (d2 = d2P m y) as -> by reflexivity.
  apply (uniqueness_limite d1' y); [exact D2|].
  pose proof (dP_derivative m y Y) as H. fold (d2P m y) in H.
  assert (forall z, -1 < z < 1 -> d1' z = dP (S m) z) as E.
  { intros z Hz. apply (uniqueness_limite (legendre (S m)) z); [apply DD, Hz|apply P_derivative]. }
  intros e He. destruct (H e He) as (d & K).
  assert (0 < Rmin d (Rmin (1 - y) (y + 1))) as MP by (apply Rmin_glb_lt; [apply cond_pos|apply Rmin_glb_lt; lra]).
  exists (mkposreal _ MP). cbn [pos]. intros h Hh Hl.
  assert (Rabs h < d /\ Rabs h < 1 - y /\ Rabs h < y + 1) as (A & B & C).
  { split; [|split]; eapply Rlt_le_trans; try exact Hl; [apply Rmin_l| |].
    - eapply Rle_trans; [apply Rmin_r|apply Rmin_l].
    - eapply Rle_trans; [apply Rmin_r|apply Rmin_r]. }
  rewrite !E; [apply K; assumption|exact Y|]. unfold Rabs in B, C. destruct (Rcase_abs h); lra.
Qed.
(** Around every root there are starting values from which the loop ends, with a point within DBL_EPSILON of the root. *)
Theorem C53_converges : forall n r, (0 < n)%nat -> legendre n r = 0 -> exists d, 0 < d /\ forall y, Rabs (y - r) < d ->
  exists fuel y' z, point_loop fuel n (n * (n + 1)) y = Found y' (legendre (n - 1) z) /\ Rabs (y' - r) <= dbl_epsilon /\ Rabs (z - r) <= 2 * dbl_epsilon.
Proof. intros n r Hn. destruct n as [|m]; [lia|]. replace (S m - 1)%nat with m by lia. apply converges. Qed.
(** More fuel does not change what is found *)
Theorem C53_fuel : forall fuel more n ib y y' p, point_loop fuel n ib y = Found y' p -> point_loop (fuel + more) n ib y = Found y' p.
Proof.
  induction fuel; intros more n ib y y' p; cbn [point_loop Nat.add]; [discriminate|].
  destruct (point_step n ib y) as [[z q]|]; [|discriminate]. destruct (Rlt_dec _ _); [apply IHfuel|trivial].
Qed.
(** A root is found at once. *)
Theorem C53_root_ends : forall n r f, (0 < n)%nat -> legendre n r = 0 -> point_loop (S f) n (n * (n + 1)) r = Found r (legendre (n - 1) r).
Proof. intros n r f Hn. destruct n as [|m]; [lia|]. replace (S m - 1)%nat with m by lia. apply root_ends. Qed.
(** But the loop can end elsewhere: for degree 2 it stays at 1 / sqrt 15, which is no root. *)
Theorem C53_spurious_refuted : exists y, point_loop 1 2 (2 * (2 + 1)) y = Found y (legendre 1 y) /\ legendre 2 y <> 0.
Proof.
  exists (/ sqrt 15). set (y := / sqrt 15).
  assert (0 < sqrt 15) as SP by (apply sqrt_lt_R0; lra).
  assert (y * y = / 15) as YY. { unfold y. rewrite <- Rinv_mult. rewrite sqrt_sqrt by lra. reflexivity. }
  assert (0 < y) as YP by (apply Rinv_0_lt_compat; exact SP).
  assert (legendre 2 y = (3 * (y * y) - 1) / 2) as E2 by (cbn; field).
  assert (dP 2 y = 3 * y) as ED by (cbn; field).
  assert (-1 < y < 1) as IN by (split; nra).
  split.
  - cbn [point_loop]. rewrite (step_inside 1 y IN) by (rewrite ED; lra).
    assert (chebyshev_step (P 2 y) (dP 2 y) (d2P 1 y) y = y) as ->.
    { unfold chebyshev_step, d2P. rewrite ED, E2, YY. cbn [INR].
      apply (Rmult_eq_reg_l y); [|lra].
      transitivity (y * y - ((3 * / 15 - 1) / 2 / 3) - ((3 * / 15 - 1) / 2) * ((3 * / 15 - 1) / 2) * ((2 * (y * y) * 3 - (1 + 1) * (1 + 2) * ((3 * / 15 - 1) / 2)) / (1 - / 15)) / (54 * (y * y))); [field; lra|].
      rewrite YY. field. }
    rewrite Rminus_diag_eq by reflexivity. rewrite Rabs_R0. pose proof dbl_epsilon_pos. destruct (Rlt_dec dbl_epsilon 0); [lra|reflexivity].
  - rewrite E2, YY. lra.
Qed.

(** * The rules *)
Lemma total_rev : forall n f, total n f = total n (fun i => f (n - 1 - i)%nat).
Proof.
  induction n; intros f; [reflexivity|]. rewrite (total_first n (fun i => f (S n - 1 - i)%nat)).
  replace (S n - 1 - 0)%nat with n by lia. rewrite (total_ext n (fun k => f (S n - 1 - S k)%nat) (fun i => f (n - 1 - i)%nat)) by (intros k _; f_equal; lia).
  rewrite <- IHn. cbn [total]. ring.
Qed.
Lemma weight_even : forall m y, weight m (- y) = weight m y.
Proof.
  intros. unfold weight. rewrite parity.
  assert (forall s p, s * s = 1 -> INR (S m) * (s * p) * (INR (S m) * (s * p)) = INR (S m) * p * (INR (S m) * p)) as E.
  { intros s p S2. transitivity ((s * s) * (INR (S m) * p * (INR (S m) * p))); [ring|]. rewrite S2. ring. }
  rewrite (E _ (P m y)) by (destruct (Nat.even m); ring). f_equal. ring.
Qed.
Lemma span_primitive : forall d f, span d f -> exists G, forall x, derivable_pt_lim G x (f x).
Proof.
  intros d f (c & H). exists (fun x => total (S d) (fun l => c l * Q l x)). intros x. rewrite H.
  apply (total_derivative (S d) (fun l y => c l * Q l y) (fun l y => c l * P l y)). intros k _. apply (derivable_pt_lim_scal (Q k)), Q_derivative.
Qed.
Lemma even_halves : forall f G, even_function f -> (forall x, derivable_pt_lim G x (f x)) -> G 0 - G (-1) = G 1 - G 0.
Proof.
  intros f G EV D.
  assert (primitive (fun x => - G (- x)) f 0 1) as H.
  { intros x _. apply (deq (fun x => - comp G (fun y => - y) x) _ _ (- (f (- x) * - (1)))).
    - reflexivity.
    - rewrite EV. ring.
    - apply (derivable_pt_lim_opp (comp G (fun y => - y))). apply (derivable_pt_lim_comp (fun y => - y) G).
      + apply (derivable_pt_lim_opp (fun y => y)), derivable_pt_lim_id.
      + apply D. }
  pose proof (same_integral _ G f 0 1 ltac:(lra) H (fun x _ => D x)) as E. cbv beta in E. rewrite Ropp_0 in E. replace (-1) with (- (1)) by ring. lra.
Qed.

(** The points that the loop of the code is meant to find: the i-th is the i-th largest root, with the value of the polynomial before. *)
Definition at_roots (at_ : nat -> nat -> R * R) (n : nat) (r : nat -> R) (i : nat) : Prop := at_ n i = (r i, legendre (n - 1) (r i)).

Section Normal.
Variables (at_ : nat -> nat -> R * R) (n : nat) (xw : rule) (r : nat -> R).
Hypothesis Hn : (0 < n)%nat.
Hypothesis HR : legendre_roots (2 * n) r.
Hypothesis HA : forall i, (n <= i < 2 * n)%nat -> at_roots at_ (2 * n) r i.
Let x := fst (gauss_leg_quad_with at_ n xw).
Let w := snd (gauss_leg_quad_with at_ n xw).
Lemma normal_values : forall i, (i < n)%nat -> x i = - r (n + i)%nat /\ w i = weight (2 * n - 1) (r (n + i)%nat).
Proof.
  intros i Hi. destruct (normal_loop at_ n xw) as [H _]. specialize (H i Hi). rewrite (HA (n + i)%nat) in H by lia. cbn [fst snd] in H. fold x w in H.
  destruct H as [-> ->]. split; [reflexivity|]. unfold weight. replace (S (2 * n - 1)) with (2 * n)%nat by lia. reflexivity.
Qed.
Lemma normal_sound : sound_nodes n x w 0 1.
Proof.
  destruct HR as (RO & DE). split.
  - intros i Hi. destruct (normal_values i Hi) as [-> ->].
    pose proof (legendre_roots_symmetric (2 * n) r HR (n + i) ltac:(lia)) as SY.
    assert (r (n + i)%nat < r (2 * n - 1 - (n + i))%nat) by (apply DE; lia).
    pose proof (root_inside _ _ (RO (n + i)%nat ltac:(lia))).
    split; [lra|]. apply weight_positive. replace (S (2 * n - 1)) with (2 * n)%nat by lia. apply RO. lia.
  - intros i j A B. rewrite (proj1 (normal_values i ltac:(lia))), (proj1 (normal_values j ltac:(lia))).
    assert (r (n + j)%nat < r (n + i)%nat) by (apply DE; lia). lra.
Qed.
Lemma normal_exact : exact n x w 0 1 (fun f => polynomial (4 * n - 1) f /\ even_function f).
Proof.
  intros f F (PO & EV) PF.
  assert (span (4 * n - 1) f) as SP.
  { apply (span_ext _ (fun x => f (0 + 1 * x))); [intros; f_equal; ring|]. apply span_polynomial. exact PO. }
  destruct (span_primitive _ f SP) as (G & HG).
  rewrite (same_integral F G f 0 1 ltac:(lra) PF (fun y _ => HG y)).
  pose proof (even_halves f G EV HG) as HALF.
  destruct HR as (RO & DE).
  assert (S (2 * n - 1) = n + n)%nat as SN by lia.
  pose proof (gauss (2 * n - 1) r (4 * n - 1) f G) as GA.
  assert (L (2 * n - 1) r f = G 1 - G (-1)) as E.
  { apply GA.
    - intros i Hi. replace (S (2 * n - 1)) with (2 * n)%nat by lia. apply RO. lia.
    - intros i j Hi Hj. apply (decreasing_distinct _ _ DE); lia.
    - lia.
    - exact SP.
    - intros y _. apply HG. }
  unfold L in E. rewrite SN, total_split in E.
  rewrite (total_rev n (fun i => weight (2 * n - 1) (r i) * f (r i))) in E.
  rewrite (total_ext n (fun i => weight (2 * n - 1) (r (n - 1 - i)%nat) * f (r (n - 1 - i)%nat)) (fun k => w k * f (x k))) in E.
  2: { intros i Hi. destruct (normal_values i Hi) as [-> ->].
       pose proof (legendre_roots_symmetric (2 * n) r HR (n + i) ltac:(lia)) as SY. replace (2 * n - 1 - (n + i))%nat with (n - 1 - i)%nat in SY by lia.
       rewrite SY, weight_even. reflexivity. }
  rewrite (total_ext n (fun k => weight (2 * n - 1) (r (n + k)%nat) * f (r (n + k)%nat)) (fun k => w k * f (x k))) in E.
  2: { intros i Hi. destruct (normal_values i Hi) as [-> ->]. rewrite EV. reflexivity. }
  lra.
Qed.
End Normal.

Section Doubled.
Variables (at_ : nat -> nat -> R * R) (n : nat) (xw : rule) (r : nat -> R).
Hypothesis HR : legendre_roots n r.
Hypothesis HA : forall i, (i < (n + 1) / 2)%nat -> at_roots at_ n r i.
Let x := fst (gauss_leg_quad2_with at_ n xw).
Let w := snd (gauss_leg_quad2_with at_ n xw).
Lemma doubled_values : forall j, (j < n)%nat -> x j = / 2 + / 2 * r (n - 1 - j)%nat /\ w j = / 2 * weight (n - 1) (r (n - 1 - j)%nat).
Proof.
  intros j Hj. destruct (doubled_loop at_ n xw) as [H _]. specialize (H j Hj). cbv zeta in H.
  assert (pick n j < (n + 1) / 2)%nat as PJ.
  { pose proof (Nat.div_mod (n + 1) 2 ltac:(lia)); pose proof (Nat.mod_upper_bound (n + 1) 2 ltac:(lia)).
    unfold pick, front. destruct (Nat.ltb_spec j (n - 1 - j)); lia. }
  pose proof (HA _ PJ) as EA. unfold at_roots in EA. rewrite !EA in H. cbn [fst snd] in H. fold x w in H. destruct H as [-> ->].
  pose proof (legendre_roots_symmetric n r HR j Hj) as SY.
  assert (n <> 0)%nat as N0 by lia.
  assert (forall y, P n y = 0 -> (1 - 2 * (/ 2 * y) * y) / (INR n * P (n - 1) y * (INR n * P (n - 1) y)) = / 2 * weight (n - 1) y) as W.
  { intros y Y. unfold weight. replace (S (n - 1)) with n by lia. assert (P (n - 1) y <> 0) by (apply before_root; replace (S (n - 1)) with n by lia; exact Y).
    assert (INR n <> 0) by (apply not_0_INR; exact N0). field. split; assumption. }
  destruct HR as (RO & _).
  rewrite W. 2: { apply RO. unfold pick. destruct (front n j); lia. }
  unfold pick. destruct (front n j).
  - rewrite SY, weight_even. split; [ring|reflexivity].
  - split; reflexivity.
Qed.
Lemma doubled_sound : sound_nodes n x w 0 1.
Proof.
  destruct HR as (RO & DE). split.
  - intros j Hj. destruct (doubled_values j Hj) as [-> ->].
    pose proof (root_inside _ _ (RO (n - 1 - j)%nat ltac:(lia))).
    assert (0 < weight (n - 1) (r (n - 1 - j)%nat)). { apply weight_positive. replace (S (n - 1)) with n by lia. apply RO. lia. }
    split; lra.
  - intros i j A B. rewrite (proj1 (doubled_values i ltac:(lia))), (proj1 (doubled_values j ltac:(lia))).
    assert (r (n - 1 - i)%nat < r (n - 1 - j)%nat) by (apply DE; lia). lra.
Qed.
Lemma doubled_exact : (0 < n)%nat -> exact n x w 0 1 (polynomial (2 * n - 1)).
Proof.
  intros Hn f F PO PF. destruct HR as (RO & DE).
  rewrite (total_ext n _ (fun j => / 2 * (fun k => weight (n - 1) (r k) * f (/ 2 + / 2 * r k)) (n - 1 - j)%nat)).
  2: { intros j Hj. destruct (doubled_values j Hj) as [-> ->]. ring. }
  rewrite total_scale, <- (total_rev n (fun k => weight (n - 1) (r k) * f (/ 2 + / 2 * r k))).
  pose proof (gauss (n - 1) r (2 * n - 1) (fun y => f (/ 2 + / 2 * y)) (fun y => 2 * F (/ 2 + / 2 * y))) as GA.
  unfold L in GA. replace (S (n - 1)) with n in GA by lia. rewrite GA.
  - replace (/ 2 + / 2 * 1) with 1 by field. replace (/ 2 + / 2 * -1) with 0 by field. field.
  - exact RO.
  - exact (decreasing_distinct _ _ DE).
  - lia.
  - apply span_polynomial. exact PO.
  - intros y Y. apply (deq (fun y => 2 * comp F (fun y => / 2 + / 2 * y) y) _ _ (2 * (f (/ 2 + / 2 * y) * (0 + / 2 * 1)))).
    + reflexivity.
    + field.
    + apply (derivable_pt_lim_scal (comp F (fun y => / 2 + / 2 * y))). apply (derivable_pt_lim_comp (fun y => / 2 + / 2 * y) F).
      * apply (derivable_pt_lim_plus (fun _ => / 2) (fun y => / 2 * y)); [apply derivable_pt_lim_const|].
        apply (derivable_pt_lim_scal (fun y => y)), derivable_pt_lim_id.
      * apply PF. lra.
Qed.
End Doubled.

(** The Gauss-Legendre rule of 2 n points for the sphere: its upper half has positive weights and nodes that increase inside of (0, 1), and
    integrates every even polynomial of a degree below 4 n over the hemisphere exactly.  The entries behind n are untouched. *)
Theorem C53_normal : forall at_ n xw r, (0 < n)%nat -> legendre_roots (2 * n) r -> (forall i, (n <= i < 2 * n)%nat -> at_roots at_ (2 * n) r i) ->
  let (x, w) := gauss_leg_quad_with at_ n xw in
  sound_nodes n x w 0 1 /\ exact n x w 0 1 (fun f => polynomial (4 * n - 1) f /\ even_function f) /\
  (forall i, (n <= i)%nat -> x i = fst xw i /\ w i = snd xw i).
Proof.
  intros at_ n xw r Hn HR HA. pose proof (normal_sound at_ n xw r Hn HR HA) as A. pose proof (normal_exact at_ n xw r Hn HR HA) as B.
  destruct (normal_loop at_ n xw) as [_ C]. destruct (gauss_leg_quad_with at_ n xw) as [x w]. exact (conj A (conj B C)).
Qed.
(** The rule of n points for the hemisphere integrates every polynomial of a degree below 2 n exactly. *)
Theorem C53_doubled : forall at_ n xw r, (0 < n)%nat -> legendre_roots n r -> (forall i, (i < (n + 1) / 2)%nat -> at_roots at_ n r i) ->
  let (x, w) := gauss_leg_quad2_with at_ n xw in
  sound_nodes n x w 0 1 /\ exact n x w 0 1 (polynomial (2 * n - 1)) /\ (forall i, (n <= i)%nat -> x i = fst xw i /\ w i = snd xw i).
Proof.
  intros at_ n xw r Hn HR HA. pose proof (doubled_sound at_ n xw r HR HA) as A. pose proof (doubled_exact at_ n xw r HR HA Hn) as B.
  destruct (doubled_loop at_ n xw) as [_ C]. destruct (gauss_leg_quad2_with at_ n xw) as [x w]. exact (conj A (conj B C)).
Qed.

(** What the scattering relies on: the even Legendre polynomials that the options allow are integrated exactly. *)
Lemma legendre_hemisphere : forall l, Nat.even l = true -> Q l 1 - Q l 0 = if Nat.eqb l 0 then 1 else 0.
Proof.
  intros [|l] E; cbn [Nat.eqb Q]; [ring|].
  assert (Nat.even l = false) as OL. { rewrite Nat.even_succ, <- Nat.negb_even in E. destruct (Nat.even l); [discriminate|reflexivity]. }
  assert (forall k, Nat.even k = false -> P k 0 = 0) as Z.
  { intros k K. pose proof (parity k 0) as H. rewrite K, Ropp_0 in H. lra. }
  rewrite !P_one, !Z; [|exact OL|exact OL]. pose proof (pos_INR l). field. lra.
Qed.
Lemma even_legendre : forall l, Nat.even l = true -> even_function (legendre l).
Proof. intros l E x. rewrite parity, E. ring. Qed.
Lemma exact_integrates : forall n x w d, exact n x w 0 1 (fun f => polynomial d f /\ even_function f) -> integrates n (S d) x w.
Proof.
  intros n x w d H l Hl E. rewrite (H (legendre l) (Q l)).
  - apply legendre_hemisphere, E.
  - split; [apply (poly_more l); [lia|apply legendre_polynomial]|apply even_legendre, E].
  - intros y _. apply Q_derivative.
Qed.
Definition roots_for (o : quad_options) (at_ : nat -> nat -> R * R) (n : nat) : Prop :=
  if quad_norm o then exists r, legendre_roots (2 * n) r /\ (forall i, (n <= i < 2 * n)%nat -> at_roots at_ (2 * n) r i)
  else exists r, legendre_roots n r /\ (forall i, (i < (n + 1) / 2)%nat -> at_roots at_ n r i).
Theorem C53_hemisphere : forall M o at_ n xw, (0 < n)%nat -> quad_norm o = true \/ quad_doub o = true -> roots_for o at_ n ->
  let (x, w) := create_quadrature M at_ o n xw in
  integrates n (2 * n) x w /\ (quad_norm o = true -> integrates n (4 * n) x w) /\
  (forall i, (i < n)%nat -> 0 < x i < 1 /\ 0 < w i) /\ total n w = 1.
Proof.
  intros M o at_ n xw Hn OO RF. unfold create_quadrature, roots_for in *.
  assert (forall x w, sound_nodes n x w 0 1 -> exact n x w 0 1 (fun f => polynomial (2 * n - 1) f /\ even_function f) ->
    (quad_norm o = true -> exact n x w 0 1 (fun f => polynomial (4 * n - 1) f /\ even_function f)) ->
    integrates n (2 * n) x w /\ (quad_norm o = true -> integrates n (4 * n) x w) /\ (forall i, (i < n)%nat -> 0 < x i < 1 /\ 0 < w i) /\ total n w = 1) as FIN.
  { intros x w (SN & _) EX EX4.
    assert (integrates n (2 * n) x w) as I2. { replace (2 * n)%nat with (S (2 * n - 1)) by lia. apply exact_integrates. exact EX. }
    refine (conj I2 (conj _ (conj SN _))).
    - intros ON. replace (4 * n)%nat with (S (4 * n - 1)) by lia. apply exact_integrates, EX4, ON.
    - pose proof (I2 0%nat ltac:(lia) eq_refl) as S0. cbn [Nat.eqb legendre] in S0.
      rewrite <- S0. apply total_ext. intros. ring. }
  destruct (quad_norm o).
  - destruct RF as (r & HR & HA). pose proof (C53_normal at_ n xw r Hn HR HA) as H.
    destruct (gauss_leg_quad_with at_ n xw) as [x w]. destruct H as (S1 & E1 & _). apply (FIN x w S1); [|intros _; exact E1].
    intros f F (PO & EV). apply E1. split; [|exact EV]. apply (poly_more (2 * n - 1)); [lia|exact PO].
  - destruct OO as [|D]; [discriminate|]. rewrite D. destruct RF as (r & HR & HA). pose proof (C53_doubled at_ n xw r Hn HR HA) as H.
    destruct (gauss_leg_quad2_with at_ n xw) as [x w]. destruct H as (S1 & E1 & _). apply (FIN x w S1); [|discriminate].
    intros f F (PO & EV). apply E1. exact PO.
Qed.
(** The factor of the fluxes makes the flux of an isotropic field exact; with the doubled rule it is 1. *)
Lemma loop_sum : forall n f, loop n (fun i a => a + f i) 0 = total n f.
Proof. induction n; intros f; [reflexivity|]. rewrite loop_S, IHn. reflexivity. Qed.
Theorem C53_flux_factor : forall M o at_ n xw, (0 < n)%nat -> quad_norm o = true \/ quad_doub o = true -> roots_for o at_ n ->
  let q := create_quadrature M at_ o n xw in
  2 * create_qf n q * total n (fun i => fst q i * snd q i) = 1 /\ (quad_norm o = false -> create_qf n q = 1).
Proof.
  intros M o at_ n xw Hn OO RF q. pose proof (C53_hemisphere M o at_ n xw Hn OO RF) as H. fold q in H.
  unfold create_qf. rewrite (loop_sum n (fun i => fst q i * snd q i)).
  split.
  - destruct q as [x w]. destruct H as (_ & _ & PO & _). cbn [fst snd].
    assert (0 < total n (fun i => x i * w i)).
    { apply Rlt_le_trans with (x 0%nat * w 0%nat). { destruct (PO 0%nat Hn). apply Rmult_lt_0_compat; lra. }
      apply (total_ge_one n (fun i => x i * w i)); [|exact Hn]. intros k Hk. destruct (PO k Hk). apply Rmult_le_pos; lra. }
    field. lra.
  - intros ON. unfold q, create_quadrature, roots_for in *. rewrite ON in *. destruct OO as [|D]; [discriminate|]. rewrite D.
    destruct RF as (r & HR & HA). pose proof (doubled_exact at_ n xw r HR HA Hn) as E.
    set (x := fst (gauss_leg_quad2_with at_ n xw)) in *. set (w := snd (gauss_leg_quad2_with at_ n xw)) in *.
    assert (total n (fun i => x i * w i) = / 2) as ->; [|field].
    rewrite (total_ext n _ (fun i => w i * (fun y => y) (x i))) by (intros; ring).
    rewrite (E (fun y => y) (fun y => / 2 * (y * y))).
    + field.
    + apply (poly_more 1); [lia|]. apply (poly_ext 1 (legendre 1)); [reflexivity|apply legendre_polynomial].
    + intros y _. apply (deq (fun y => / 2 * (y * y)) _ _ (/ 2 * (1 * y + y * 1))); [reflexivity|field|].
      apply (derivable_pt_lim_scal (fun y => y * y)). apply (derivable_pt_lim_mult (fun y => y) (fun y => y)); apply derivable_pt_lim_id.
Qed.
(** The rule for the azimuths of the kernels: means over (0, pi) of polynomials of a degree below 2 n. *)
Lemma scaled_loop : forall n (x : nat -> R), (forall i, (i < n)%nat -> loop n (fun i x => set1 x i (x i * PI)) x i = x i * PI) /\
  (forall i, (n <= i)%nat -> loop n (fun i x => set1 x i (x i * PI)) x i = x i).
Proof.
  induction n; intros x; [split; [intros; lia|reflexivity]|]. destruct (IHn x) as [A B]. rewrite loop_S. split.
  - intros i Hi. destruct (Nat.eq_dec i n) as [->|NE].
    + rewrite set1_at, B by lia. reflexivity.
    + rewrite set1_off by exact NE. apply A. lia.
  - intros i Hi. rewrite set1_off by lia. apply B. lia.
Qed.
Theorem C53_kernel : forall at_ n xw r, (0 < n)%nat -> legendre_roots n r -> (forall i, (i < (n + 1) / 2)%nat -> at_roots at_ n r i) ->
  let (x, w) := create_kernel_quadrature at_ n xw in
  sound_nodes n x w 0 PI /\ exact n x (fun i => PI * w i) 0 PI (polynomial (2 * n - 1)).
Proof.
  intros at_ n xw r Hn HR HA. pose proof (C53_doubled at_ n xw r Hn HR HA) as H. unfold create_kernel_quadrature.
  destruct (gauss_leg_quad2_with at_ n xw) as [x w]. destruct H as ((S1 & S2) & E & _). destruct (scaled_loop n x) as [SL _].
  pose proof PI_RGT_0 as PP.
  split; [split|].
  - intros i Hi. rewrite SL by exact Hi. destruct (S1 i Hi). split; [split; nra|lra].
  - intros i j A B. rewrite !SL by lia. specialize (S2 i j A B). nra.
  - intros f F PO PF.
    rewrite (total_ext n _ (fun i => w i * (fun y => PI * f (y * PI)) (x i))) by (intros i Hi; rewrite SL by exact Hi; ring).
    rewrite (E (fun y => PI * f (y * PI)) (fun y => F (y * PI))).
    + rewrite Rmult_1_l, Rmult_0_l. reflexivity.
    + apply poly_scale. destruct PO as (a & PA). exists (fun k => a k * PI ^ k). intros y. rewrite PA. apply total_ext. intros k _. rewrite Rpow_mult_distr. ring.
    + intros y Y. apply (deq (comp F (fun y => y * PI)) _ _ (f (y * PI) * PI)); [reflexivity|ring|].
      apply (derivable_pt_lim_comp (fun y => y * PI) F).
      * apply (deq (fun y => PI * y) _ _ (PI * 1)); [intros; ring|ring|]. apply (derivable_pt_lim_scal (fun y => y)), derivable_pt_lim_id.
      * apply PF. split; nra.
Qed.
(** The option of Lobatto's quadrature is accepted, and leaves nodes and weights that are no quadrature. *)
Theorem C53_lobatto_refuted : forall M at_ o n xw, 0 < M -> (0 < n)%nat -> quad_norm o = false -> quad_doub o = false -> quad_lobatto o = true ->
  let (x, w) := create_quadrature M at_ o n xw in
  (forall i, (i < n)%nat -> x i = - M /\ w i = - M) /\ forall k, (0 < k)%nat -> ~ integrates n k x w.
Proof.
  intros M at_ o n xw HM Hn A B C. unfold create_quadrature. rewrite A, B, C.
  match goal with |- context [loop n ?b xw] => set (body := b) end.
  assert (forall m i, (i < m)%nat -> fst (loop m body xw) i = - M /\ snd (loop m body xw) i = - M) as H.
  { induction m; intros i Hi; [lia|]. rewrite loop_S. specialize (IHm i). unfold body at 1 3. destruct (loop m body xw) as [x w]. cbn [fst snd] in *.
    destruct (Nat.eq_dec i m) as [->|NE]; [rewrite !set1_at; split; reflexivity|]. rewrite !set1_off by exact NE. apply IHm. lia. }
  specialize (H n). destruct (loop n body xw) as [x w]. cbn [fst snd] in H. split; [exact H|].
  intros k Hk I0. specialize (I0 0%nat Hk eq_refl). cbn [Nat.eqb legendre] in I0.
  assert (total n (fun j => w j * 1) <= 0); [|lra].
  rewrite (total_ext n _ (fun _ => - M)) by (intros i Hi; rewrite (proj2 (H i Hi)); ring).
  clear - HM. induction n; cbn [total]; lra.
Qed.
(** The rule for the sphere is no rule for the hemisphere: its half of one point misses the integral of x over (0, 1). *)
Theorem C53_odd_refuted : exists at_ r, legendre_roots 2 r /\ (forall i, (1 <= i < 2)%nat -> at_roots at_ 2 r i) /\
  forall xw, let (x, w) := gauss_leg_quad_with at_ 1 xw in total 1 (fun i => w i * x i) <> / 2.
Proof.
  destruct (legendre_roots_exist 2) as (r & HR). exists (fun n i => (r i, legendre (n - 1) (r i))), r. refine (conj HR (conj _ _)).
  - intros i _. reflexivity.
  - intros xw. pose proof (C53_normal (fun n i => (r i, legendre (n - 1) (r i))) 1 xw r ltac:(lia) HR (fun i _ => eq_refl)) as H.
    pose proof (normal_values (fun n i => (r i, legendre (n - 1) (r i))) 1 xw r ltac:(lia) (fun i _ => eq_refl) 0%nat ltac:(lia)) as V.
    destruct (gauss_leg_quad_with _ 1 xw) as [x w]. cbn [fst snd] in V. destruct H as ((S1 & _) & E & _).
    specialize (S1 0%nat ltac:(lia)). destruct V as [V _]. replace (1 + 0)%nat with 1%nat in V by lia.
    pose proof (proj1 HR 1%nat ltac:(lia)) as R1. cbn in R1.
    assert (x 0%nat * x 0%nat = / 3) as X2 by (rewrite V; lra).
    cbn [total]. rewrite Rplus_0_l.
    assert (w 0%nat = 1) as W.
    { pose proof (exact_integrates 1 x w _ E 0%nat ltac:(lia) eq_refl) as I0. cbn in I0. lra. }
    rewrite W. intros Z. assert (x 0%nat = / 2) as XH by lra. rewrite XH in X2. lra.
Qed.
(** With one point the code finds the root itself, in any number of passes: the rule for the hemisphere is the midpoint. *)
Theorem C53_one_point : forall f xw, let (x, w) := gauss_leg_quad2_with (code_points (S f)) 1 xw in x 0%nat = / 2 /\ w 0%nat = 1.
Proof.
  intros f xw.
  assert (code_points (S f) 1 0 = (0, 1)) as E.
  { unfold code_points, code_point, gauss_leg_point.
    assert (point_start 0 (4 * 1 + 2) ((INR 1 - 1) / (8 * INR 1 ^ 3)) = 0) as ->.
    { unfold point_start. cbv zeta. cbn [INR Nat.mul Nat.add]. rewrite Rminus_diag_eq by reflexivity.
      unfold Rdiv at 2 3. rewrite !Rmult_0_l, Rplus_0_r.
      replace ((4 * 0 + 3) / (1 + 1 + 1 + 1 + 1 + 1) * PI) with (PI / 2) by field. apply cos_PI2. }
    pose proof (root_ends 0 0 f eq_refl) as RE. rewrite RE. reflexivity. }
  unfold gauss_leg_quad2_with. change ((1 + 1) / 2)%nat with 1%nat. cbn [loop]. destruct xw as [x w]. change (1 - 1 - 0)%nat with 0%nat. rewrite E.
  rewrite !set1_at. cbn [INR]. split; field.
Qed.

(** The hypotheses are met for every number of points: by the function that returns the roots *)
Example C53_hemisphere_case : forall o n, exists at_, roots_for o at_ n.
Proof.
  intros o n. destruct (legendre_roots_exist (2 * n)) as (r & HR). destruct (legendre_roots_exist n) as (s & HS).
  unfold roots_for. destruct (quad_norm o).
  - exists (fun n i => (r i, legendre (n - 1) (r i))), r. split; [exact HR|]. intros; reflexivity.
  - exists (fun n i => (s i, legendre (n - 1) (s i))), s. split; [exact HS|]. intros; reflexivity.
Qed.
(** The one point of the sphere's rule is 1 / sqrt 3 *)
Example C53_normal_case : legendre_roots 2 (fun i => if Nat.eqb i 0 then / sqrt 3 else - / sqrt 3).
Proof.
  assert (0 < sqrt 3) as SP by (apply sqrt_lt_R0; lra).
  assert (/ sqrt 3 * / sqrt 3 = / 3) as YY by (rewrite <- Rinv_mult, sqrt_sqrt by lra; reflexivity).
  pose proof (Rinv_0_lt_compat _ SP) as IP.
  split.
  - intros i Hi. cbn. destruct (Nat.eqb i 0); lra.
  - intros i j A B. assert (i = 0 /\ j = 1)%nat as [-> ->] by lia. cbn [Nat.eqb]. lra.
Qed.

Print Assumptions C53_roots.
Print Assumptions C53_iteration.
Print Assumptions C53_converges.
Print Assumptions C53_spurious_refuted.
Print Assumptions C53_normal.
Print Assumptions C53_doubled.
Print Assumptions C53_hemisphere.
Print Assumptions C53_flux_factor.
Print Assumptions C53_kernel.
Print Assumptions C53_lobatto_refuted.
Print Assumptions C53_odd_refuted.
Print Assumptions C53_one_point.
