(** What the scalar scattering code computes. *)
From Coq Require Import Reals ZArith Arith Bool Lia Lra Factorial.
From Verif Require Import DeltaMSpec DeltaMProofs AddingMat ScatSpec ScatModel LegendreProofs.
Open Scope R_scope.

Lemma run_inv : forall A k i (f : nat -> A -> option A) (Inv : nat -> A -> Prop) s, Inv i s ->
  (forall j s, (i <= j < i + k)%nat -> Inv j s -> exists s', f j s = Some s' /\ Inv (S j) s') -> exists s', run k i f s = Some s' /\ Inv (i + k)%nat s'.
Proof.
  intros A. induction k as [|k IH]; intros i f Inv s I0 St; cbn [run].
  - exists s. rewrite Nat.add_0_r. split; [reflexivity|exact I0].
  - destruct (St i s ltac:(lia) I0) as [s1 [E1 I1]]. rewrite E1. cbn [bind].
    destruct (IH (S i) f Inv s1 I1) as [s2 [E2 I2]]. { intros j t Hj. apply St. lia. }
    exists s2. split; [exact E2|]. replace (i + S k)%nat with (S i + k)%nat by lia. exact I2.
Qed.
Lemma put_ok : forall len i v y, (i < len)%nat -> exists y', put len i v y = Some y' /\ y' i = v /\ forall k, k <> i -> y' k = y k.
Proof.
  intros len i v y H. unfold put. destruct (Nat.ltb_spec i len); [|lia]. eexists. split; [reflexivity|].
  split; [rewrite Nat.eqb_refl; reflexivity|]. intros k N. destruct (Nat.eqb_spec k i); [contradiction|reflexivity].
Qed.

(* ------------------------------------------------------------------------- *)
(** * Legendre polynomials                                                    *)

Lemma legendre_step : forall k x, legendre (S (S k)) x = ((2 * INR (S k) + 1) * x * legendre (S k) x - INR (S k) * legendre k x) / (INR (S k) + 1).
Proof. reflexivity. Qed.
Lemma leg_poly_ok : forall len n_l mu p0, (0 < len)%nat -> (n_l <= len)%nat ->
  exists p, leg_poly len n_l mu p0 = Some p /\ forall l, (l < n_l)%nat -> p l = legendre l mu.
Proof.
  intros len n_l mu p0 Pos Le. unfold leg_poly. destruct (put_ok len 0 1 p0 Pos) as [p1 [E1 [A1 _]]]. rewrite E1. cbn [bind].
  destruct (Nat.ltb_spec 1 n_l) as [H|H].
  - destruct (put_ok len 1 mu p1 ltac:(lia)) as [p2 [E2 [A2 B2]]]. rewrite E2. cbn [bind].
    destruct (run_inv array (n_l - 2) 1 (fun j p => let a := INR j / (INR j + 1) in let b := mu * p j in
      put len (j + 1) (a * (b - p (j - 1)%nat) + b) p) (fun j p => forall l, (l <= j)%nat -> p l = legendre l mu) p2) as [p3 [E3 A3]].
    + intros l Hl. destruct l as [|[|l]]; [rewrite B2 by lia; exact A1|exact A2|lia].
    + intros j s Hj Inv. cbv zeta.
      destruct (put_ok len (j + 1) (INR j / (INR j + 1) * (mu * s j - s (j - 1)%nat) + mu * s j) s ltac:(lia)) as [s' [E [A B]]].
      exists s'. split; [exact E|]. intros l Hl. destruct (Nat.eq_dec l (j + 1)) as [->|N].
      * rewrite A, (Inv j), (Inv (j - 1)%nat) by lia. destruct j as [|j]; [lia|]. replace (S j + 1)%nat with (S (S j)) by lia.
        replace (S j - 1)%nat with j by lia. rewrite legendre_step. field. pose proof (pos_INR (S j)). lra.
      * rewrite B by exact N. apply Inv. lia.
    + exists p3. split; [exact E3|]. intros l Hl. apply A3. lia.
  - cbn [bind]. replace (n_l - 2)%nat with 0%nat by lia. exists p1. split; [reflexivity|]. intros l Hl. assert (l = 0%nat) as -> by lia. exact A1.
Qed.
Lemma P_legendre : forall l x, P 0 x (Z.of_nat l) = legendre l x.
Proof.
  intros l x. rewrite (P_at 0 x l : P 0 x (Z.of_nat l) = _).
  enough (qs 0 x l = legendre l x /\ qs 0 x (S l) = legendre (S l) x) by tauto. induction l as [|l [I0 I1]].
  - split; [reflexivity|]. cbn. ring.
  - split; [exact I1|]. rewrite qs_step, legendre_step, I0, I1. rewrite S_INR. change (INR 0) with 0. field. pose proof (pos_INR l). lra.
Qed.

(* ------------------------------------------------------------------------- *)
(** * Associated functions                                                    *)

(** What the arrays hold *)
Definition Yv (m : nat) (x : R) (l : nat) : R := (-1) ^ m * sqrt (weight l m) * sqrt (1 - x * x) ^ m * P m x (Z.of_nat l).
Lemma Yv_low : forall m x l, (l < m)%nat -> Yv m x l = 0.
Proof. intros m x l H. unfold Yv. rewrite P_low by lia. ring. Qed.
Lemma weight_pos : forall l m, 0 < weight l m.
Proof. intros l m. unfold weight. apply Rdiv_lt_0_compat; apply INR_fact_lt_0. Qed.
Lemma sqrt_shift : forall a b k, 0 <= a -> 0 <= k -> a * (k * k) = b -> sqrt a * k = sqrt b.
Proof. intros a b k Ha Hk E. rewrite <- E, sqrt_mult by nra. rewrite (sqrt_square k) by exact Hk. reflexivity. Qed.
Lemma sign_sq : forall m, (-1) ^ m * (-1) ^ m = 1.
Proof. intro m. rewrite <- Rpow_mult_distr. replace (-1 * -1) with 1 by ring. apply pow1. Qed.

Lemma factors_val : forall m, factors m = ((-1) ^ m * sqrt (weight m m) * dfact m, (-1) ^ m * sqrt (weight (S m) m) * ((2 * INR m + 1) * dfact m)).
Proof.
  induction m as [|m IH].
  - cbn [factors step_factors Nat.eqb]. rewrite !weight_0, sqrt_1. cbn [pow dfact INR]. f_equal; ring.
  - cbn [factors]. rewrite IH. unfold step_factors. change (S m =? 0)%nat with false. cbv iota zeta. cbn [fst snd].
    rewrite dfact_S, (S_INR m). pose proof (pos_INR m) as Pm. set (M := INR m) in *.
    assert (sqrt (weight m m) * sqrt ((2 * (M + 1) - 1) / (2 * (M + 1))) = sqrt (weight (S m) (S m)) * (2 * M + 1)) as E1.
    { rewrite <- sqrt_mult; [|pose proof (weight_pos m m); lra|apply Rlt_le, Rdiv_lt_0_compat; lra].
      symmetry. apply sqrt_shift; [pose proof (weight_pos (S m) (S m)); lra|lra|].
      unfold weight. replace (S m - S m)%nat with (m - m)%nat by lia. replace (S m + S m)%nat with (S (S (m + m))) by lia.
      rewrite !fact_1, S_INR, plus_INR. fold M. field; repeat split; first [apply fact_nz|lra]. }
    assert (sqrt (weight (S m) m) * sqrt ((2 * (M + 1) + 1) / (2 * (M + 1))) = sqrt (weight (S (S m)) (S m)) * (2 * M + 3)) as E2.
    { rewrite <- sqrt_mult; [|pose proof (weight_pos (S m) m); lra|apply Rlt_le, Rdiv_lt_0_compat; lra].
      symmetry. apply sqrt_shift; [pose proof (weight_pos (S (S m)) (S m)); lra|lra|].
      unfold weight. replace (S (S m) - S m)%nat with (S m - m)%nat by lia. replace (S (S m) + S m)%nat with (S (S (S m + m))) by lia.
      rewrite !fact_1, !S_INR, plus_INR, S_INR. fold M. field; repeat split; first [apply fact_nz|lra]. }
    f_equal.
    + replace ((-1) ^ m * sqrt (weight m m) * dfact m * - sqrt ((2 * (M + 1) - 1) / (2 * (M + 1))))
        with (- (-1) ^ m * dfact m * (sqrt (weight m m) * sqrt ((2 * (M + 1) - 1) / (2 * (M + 1))))) by ring. rewrite E1. cbn [pow]. ring.
    + replace ((-1) ^ m * sqrt (weight (S m) m) * ((2 * M + 1) * dfact m) * - sqrt ((2 * (M + 1) + 1) / (2 * (M + 1))))
        with (- (-1) ^ m * ((2 * M + 1) * dfact m) * (sqrt (weight (S m) m) * sqrt ((2 * (M + 1) + 1) / (2 * (M + 1))))) by ring. rewrite E2. cbn [pow]. ring.
Qed.
Lemma Yv_diag : forall m x, Yv m x m = fst (factors m) * sqrt (1 - x * x) ^ m.
Proof.
  intros m x. rewrite factors_val. cbn [fst]. unfold Yv. replace (Z.of_nat m) with (Z.of_nat (m + 0)) by lia. rewrite P_at. cbn [qs]. ring.
Qed.
Lemma Yv_next : forall m x, Yv m x (S m) = snd (factors m) * x * sqrt (1 - x * x) ^ m.
Proof.
  intros m x. rewrite factors_val. cbn [snd]. unfold Yv. replace (Z.of_nat (S m)) with (Z.of_nat (m + 1)) by lia. rewrite P_at. cbn [qs]. ring.
Qed.
Lemma Yv_rec : forall m x j, (m < j)%nat ->
  Yv m x (j + 1) = (INR (2 * j + 1) * x * Yv m x j - sqrt (INR ((j + m) * (j - m))) * Yv m x (j - 1)) / sqrt (INR ((j - m + 1) * (j + m + 1))).
Proof.
  intros m x j H. unfold Yv. pose proof (rec1 m x (Z.of_nat j)) as Rc. rewrite <- INR_IZR_INZ in Rc.
  replace (Z.of_nat j + 1)%Z with (Z.of_nat (j + 1)) in Rc by lia. replace (Z.of_nat j - 1)%Z with (Z.of_nat (j - 1)) in Rc by lia.
  assert (INR m + 1 <= INR j) as Le. { rewrite <- S_INR. apply le_INR. lia. } pose proof (pos_INR m) as Pm.
  pose proof (weight_degree j m ltac:(lia)) as W1. pose proof (weight_degree (j - 1) m ltac:(lia)) as W0.
  replace (S (j - 1)) with j in W0 by lia. replace (S j) with (j + 1)%nat in W1 by lia. rewrite minus_INR in W0 by lia. change (INR 1) with 1 in W0.
  assert (sqrt (INR ((j - m + 1) * (j + m + 1))) * sqrt (weight (j + 1) m) = sqrt (weight j m) * (INR j - INR m + 1)) as E1.
  { rewrite <- sqrt_mult; [|apply pos_INR|pose proof (weight_pos (j + 1) m); lra]. symmetry. apply sqrt_shift; [pose proof (weight_pos j m); lra|lra|].
    rewrite mult_INR, !plus_INR, minus_INR by lia. change (INR 1) with 1. nra. }
  assert (sqrt (INR ((j + m) * (j - m))) * sqrt (weight (j - 1) m) = sqrt (weight j m) * (INR j + INR m)) as E0.
  { rewrite <- sqrt_mult; [|apply pos_INR|pose proof (weight_pos (j - 1) m); lra]. symmetry. apply sqrt_shift; [pose proof (weight_pos j m); lra|lra|].
    rewrite mult_INR, !plus_INR, minus_INR by lia. nra. }
  assert (sqrt (INR ((j - m + 1) * (j + m + 1))) <> 0) as Nz.
  { apply Rgt_not_eq, sqrt_lt_R0. rewrite mult_INR, !plus_INR, minus_INR by lia. change (INR 1) with 1. nra. }
  apply (Rmult_eq_reg_l (sqrt (INR ((j - m + 1) * (j + m + 1))))); [|exact Nz].
  transitivity ((-1) ^ m * sqrt (1 - x * x) ^ m * P m x (Z.of_nat (j + 1)) * (sqrt (INR ((j - m + 1) * (j + m + 1))) * sqrt (weight (j + 1) m))); [ring|]. rewrite E1.
  transitivity ((-1) ^ m * sqrt (1 - x * x) ^ m * (INR (2 * j + 1) * x * sqrt (weight j m) * P m x (Z.of_nat j) -
    (sqrt (INR ((j + m) * (j - m))) * sqrt (weight (j - 1) m)) * P m x (Z.of_nat (j - 1)))); [rewrite E0|field; exact Nz].
  replace (INR (2 * j + 1)) with (2 * INR j + 1) by (rewrite plus_INR, mult_INR; cbn [INR]; ring).
  transitivity ((-1) ^ m * sqrt (1 - x * x) ^ m * sqrt (weight j m) * ((INR j - INR m + 1) * P m x (Z.of_nat (j + 1)))); [ring|]. rewrite Rc. ring.
Qed.

Lemma assoc_ok : forall m len n_l mu y0, (m < n_l)%nat -> (n_l <= len)%nat ->
  exists y, leg_poly_assoc m len n_l mu (factors m) y0 = Some y /\ forall l, (l < n_l)%nat -> y l = Yv m mu l.
Proof.
  intros m len n_l mu y0 Hm Le. unfold leg_poly_assoc.
  set (init := if (m =? 0)%nat then _ else _).
  assert (exists y, init = Some y /\ forall l, (l <= m + 1)%nat -> (l < n_l)%nat -> y l = Yv m mu l) as [y [Ei Ai]].
  { unfold init. destruct (Nat.eqb_spec m 0) as [->|Nz].
    - destruct (put_ok len 0 1 y0 ltac:(lia)) as [y1 [E1 [A1 _]]]. rewrite E1. cbn [bind]. destruct (Nat.ltb_spec 1 n_l) as [H|H].
      + destruct (put_ok len 1 mu y1 ltac:(lia)) as [y2 [E2 [A2 B2]]]. exists y2. split; [exact E2|]. intros [|[|l]] Hl _; [| |lia].
        * rewrite B2 by lia. rewrite A1, Yv_diag. cbn. ring.
        * rewrite A2, Yv_next. cbn. ring.
      + exists y1. split; [reflexivity|]. intros [|l] Hl Hn; [|lia]. rewrite A1, Yv_diag. cbn. ring.
    - destruct (run_inv array m 0 (fun j y => put len j 0 y) (fun j y => forall l, (l < j)%nat -> y l = 0) y0) as [y1 [E1 A1]].
      + intros l Hl. lia.
      + intros j s Hj Inv. destruct (put_ok len j 0 s ltac:(lia)) as [s' [E [A B]]]. exists s'. split; [exact E|].
        intros l Hl. destruct (Nat.eq_dec l j) as [->|N]; [exact A|]. rewrite B by exact N. apply Inv. lia.
      + rewrite E1. cbn [bind]. cbv zeta. unfold half_power.
        destruct (put_ok len m (fst (factors m) * sqrt (1 - mu * mu) ^ m) y1 ltac:(lia)) as [y2 [E2 [A2 B2]]]. rewrite E2. cbn [bind].
        destruct (Nat.ltb_spec (m + 1) n_l) as [H|H].
        * destruct (put_ok len (m + 1) (snd (factors m) * mu * sqrt (1 - mu * mu) ^ m) y2 ltac:(lia)) as [y3 [E3 [A3 B3]]]. exists y3. split; [exact E3|].
          intros l Hl Hn. destruct (Nat.eq_dec l (m + 1)) as [->|N1]. { rewrite A3. replace (m + 1)%nat with (S m) by lia. rewrite Yv_next. reflexivity. }
          rewrite B3 by exact N1. destruct (Nat.eq_dec l m) as [->|N2]. { rewrite A2, Yv_diag. reflexivity. }
          rewrite B2 by exact N2. rewrite Yv_low by lia. apply A1. lia.
        * exists y2. split; [reflexivity|]. intros l Hl Hn. destruct (Nat.eq_dec l m) as [->|N2]. { rewrite A2, Yv_diag. reflexivity. }
          rewrite B2 by exact N2. rewrite Yv_low by lia. apply A1. lia. }
  rewrite Ei. cbn [bind].
  destruct (run_inv array (n_l - 1 - (m + 1)) (m + 1) (fun j y => let b := sqrt (INR ((j - m + 1) * (j + m + 1))) in let a := sqrt (INR ((j + m) * (j - m))) in
       put len (j + 1) ((INR (2 * j + 1) * mu * y j - a * y (j - 1)%nat) / b) y) (fun j y => forall l, (l <= j)%nat -> (l < n_l)%nat -> y l = Yv m mu l) y Ai) as [y' [E' A']].
  - intros j s Hj Inv. cbv zeta.
    destruct (put_ok len (j + 1) ((INR (2 * j + 1) * mu * s j - sqrt (INR ((j + m) * (j - m))) * s (j - 1)%nat) / sqrt (INR ((j - m + 1) * (j + m + 1)))) s ltac:(lia)) as [s' [E [A B]]].
    exists s'. split; [exact E|]. intros l Hl Hn. destruct (Nat.eq_dec l (j + 1)) as [->|N].
    + rewrite A, (Inv j), (Inv (j - 1)%nat) by lia. symmetry. apply Yv_rec. lia.
    + rewrite B by exact N. apply Inv; lia.
  - exists y'. split; [exact E'|]. intros l Hl. apply A'; lia.
Qed.
(** The order must be below the length: otherwise a write falls outside *)
Lemma assoc_out : forall m len n_l mu cd y0, (len <= m)%nat -> leg_poly_assoc m len n_l mu cd y0 = None.
Proof.
  intros m len n_l mu cd y0 Le. unfold leg_poly_assoc.
  set (init := if (m =? 0)%nat then _ else _). enough (init = None) as E by (rewrite E; reflexivity). unfold init.
  assert (forall i v y, (len <= i)%nat -> put len i v y = None) as Out. { intros i v y H. unfold put. destruct (Nat.ltb_spec i len); [lia|reflexivity]. }
  destruct (Nat.eqb_spec m 0) as [->|Nz]; [rewrite Out by lia; reflexivity|].
  destruct (run m 0 _ y0) as [y|]; [|reflexivity]. cbn [bind]. cbv zeta. rewrite Out by exact Le. reflexivity.
Qed.
Lemma Yv_opp : forall m x l, (m <= l)%nat -> Yv m (- x) l = (-1) ^ (l - m) * Yv m x l.
Proof.
  intros m x l H. unfold Yv. replace l with (m + (l - m))%nat by lia. rewrite !P_at. rewrite (proj1 (qs_opp m x _)).
  replace (- x * - x) with (x * x) by ring. replace (m + (l - m) - m)%nat with (l - m)%nat by lia. ring.
Qed.
Lemma Yv_prod : forall m x y l, Yv m x l * Yv m y l = T (sqrt (1 - x * x) * sqrt (1 - y * y)) x y m l.
Proof.
  intros m x y l. unfold Yv, T. rewrite Rpow_mult_distr. pose proof (sqrt_sqrt (weight l m) ltac:(pose proof (weight_pos l m); lra)) as E.
  transitivity ((-1) ^ m * (-1) ^ m * (sqrt (weight l m) * sqrt (weight l m)) * (sqrt (1 - x * x) ^ m * sqrt (1 - y * y) ^ m) * P m x (Z.of_nat l) * P m y (Z.of_nat l)); [ring|].
  rewrite E, sign_sq. ring.
Qed.

(* ------------------------------------------------------------------------- *)
(** * Sums over every other coefficient                                       *)

Lemma every_other_snoc : forall k i f acc, every_other (S k) i f acc = every_other k i f acc + f (i + 2 * k)%nat.
Proof.
  induction k as [|k IH]; intros i f acc. { cbn. rewrite Nat.add_0_r. ring. }
  change (every_other (S (S k)) i f acc) with (every_other (S k) (i + 2) f (acc + f i)). rewrite IH. cbn [every_other].
  do 2 f_equal. lia.
Qed.
Lemma every_other_a_snoc : forall k i g ca, every_other_a (S k) i g ca = fun q => if (q =? i + 2 * k)%nat then every_other_a k i g ca q + g (i + 2 * k)%nat else every_other_a k i g ca q.
Proof.
  induction k as [|k IH]; intros i g ca. { cbn. rewrite Nat.add_0_r. reflexivity. }
  change (every_other_a (S (S k)) i g ca) with (every_other_a (S k) (i + 2) g (fun q => if (q =? i)%nat then ca q + g i else ca q)). rewrite IH. cbn [every_other_a].
  replace (i + 2 + 2 * k)%nat with (i + 2 * S k)%nat by lia. reflexivity.
Qed.
(** k is one of i, i + 2, ... *)
Definition hits (i k : nat) : bool := (i <=? k)%nat && Nat.even (k - i).
Lemma count_step : forall i n, (hits i n = true /\ Nat.div2 (S n - i + 1) = S (Nat.div2 (n - i + 1)) /\ (i + 2 * Nat.div2 (n - i + 1))%nat = n) \/
  (hits i n = false /\ Nat.div2 (S n - i + 1) = Nat.div2 (n - i + 1)).
Proof.
  intros i n. unfold hits. destruct (Nat.leb_spec i n) as [H|H]; cbn [andb].
  - replace (S n - i + 1)%nat with (S (S (n - i))) by lia. destruct (Nat.even (n - i)) eqn:E.
    + left. apply Nat.even_spec in E. destruct E as [t E]. rewrite E. replace (2 * t + 1)%nat with (S (2 * t)) by lia. replace (S (S (2 * t))) with (2 * S t)%nat by lia.
      rewrite Nat.div2_succ_double, Nat.div2_double. repeat split; lia.
    + right. split; [reflexivity|]. pose proof (Nat.negb_odd (n - i)) as O. rewrite E in O. apply Bool.negb_false_iff in O. apply Nat.odd_spec in O. destruct O as [t O].
      rewrite O. replace (2 * t + 1 + 1)%nat with (2 * (t + 1))%nat by lia. replace (S (S (2 * t + 1))) with (S (2 * (t + 1))) by lia.
      rewrite Nat.div2_succ_double, Nat.div2_double. reflexivity.
  - right. split; [reflexivity|]. replace (S n - i)%nat with 0%nat by lia. replace (n - i)%nat with 0%nat by lia. reflexivity.
Qed.
Lemma alternate_sum : forall i n f, alternate i n f = total n (fun k => if hits i k then f k else 0).
Proof.
  intros i n f. unfold alternate. induction n as [|n IH]; [reflexivity|]. cbn [total]. destruct (count_step i n) as [[H [E1 E2]]|[H E1]].
  - rewrite E1, every_other_snoc, IH, H, E2. reflexivity.
  - rewrite E1, IH, H. ring.
Qed.
Lemma alternate_a_val : forall i n g ca q, alternate_a i n g ca q = if (q <? n)%nat && hits i q then ca q + g q else ca q.
Proof.
  intros i n g ca q. unfold alternate_a. induction n as [|n IH]; [reflexivity|]. destruct (count_step i n) as [[H [E1 E2]]|[H E1]].
  - rewrite E1, every_other_a_snoc, E2. destruct (Nat.eqb_spec q n) as [->|N].
    + rewrite IH. destruct (Nat.ltb_spec n n); [lia|]. destruct (Nat.ltb_spec n (S n)); [|lia]. cbn [andb]. rewrite H. reflexivity.
    + rewrite IH. destruct (Nat.ltb_spec q n), (Nat.ltb_spec q (S n)); try lia; reflexivity.
  - rewrite E1, IH. destruct (Nat.eqb_spec q n) as [->|N].
    + rewrite H, !andb_false_r. reflexivity.
    + destruct (Nat.ltb_spec q n), (Nat.ltb_spec q (S n)); try lia; reflexivity.
Qed.
Lemma hits_other : forall i k, (i <= k)%nat -> hits (i + 1) k = negb (hits i k).
Proof.
  intros i k H. unfold hits. destruct (Nat.leb_spec i k); [|lia]. cbn [andb]. destruct (Nat.eq_dec i k) as [->|N].
  - rewrite Nat.sub_diag. destruct (Nat.leb_spec (k + 1) k); [lia|reflexivity].
  - destruct (Nat.leb_spec (i + 1) k); [|lia]. cbn [andb]. replace (k - i)%nat with (S (k - (i + 1))) by lia. rewrite Nat.even_succ.
    rewrite <- Nat.negb_even, negb_involutive. reflexivity.
Qed.
Lemma hits_low : forall i k, (k < i)%nat -> hits i k = false.
Proof. intros i k H. unfold hits. destruct (Nat.leb_spec i k); [lia|reflexivity]. Qed.
Lemma sign_hits : forall i k, (i <= k)%nat -> (-1) ^ (k - i) = if hits i k then 1 else -1.
Proof.
  intros i k H. unfold hits. destruct (Nat.leb_spec i k); [|lia]. cbn [andb]. destruct (Nat.even (k - i)) eqn:E.
  - apply Nat.even_spec in E. destruct E as [t ->]. rewrite pow_mult. replace ((-1) ^ 2) with 1 by ring. apply pow1.
  - pose proof (Nat.negb_odd (k - i)) as O. rewrite E in O. apply Bool.negb_false_iff in O. apply Nat.odd_spec in O. destruct O as [t ->].
    rewrite pow_add, pow_mult. replace ((-1) ^ 2) with 1 by ring. rewrite pow1. ring.
Qed.
Lemma alternate_plus : forall i n f, (forall k, (k < i)%nat -> f k = 0) -> alternate i n f + alternate (i + 1) n f = total n f.
Proof.
  intros i n f Z. rewrite !alternate_sum, <- total_plus. apply total_ext. intros k _. destruct (Nat.lt_ge_cases k i) as [H|H].
  - rewrite !hits_low, Z by lia. ring.
  - rewrite hits_other by exact H. destruct (hits i k); cbn [negb]; ring.
Qed.
Lemma alternate_minus : forall i n f, (forall k, (k < i)%nat -> f k = 0) -> alternate i n f - alternate (i + 1) n f = total n (fun k => (-1) ^ (k - i) * f k).
Proof.
  intros i n f Z. rewrite !alternate_sum. replace (fun k => (-1) ^ (k - i) * f k) with (fun k => (-1) ^ (k - i) * f k) by reflexivity.
  unfold Rminus. rewrite <- (Rmult_1_l (total n (fun k => if hits (i + 1) k then f k else 0))), Ropp_mult_distr_l, <- total_scale, <- total_plus.
  apply total_ext. intros k _. destruct (Nat.lt_ge_cases k i) as [H|H].
  - rewrite !hits_low, Z by lia. ring.
  - rewrite sign_hits, hits_other by exact H. destruct (hits i k); cbn [negb]; ring.
Qed.

(* ------------------------------------------------------------------------- *)
(** * The Fourier components                                                  *)

Lemma eps_code : forall m, 2 - (if (m =? 0)%nat then 1 else 0) = eps m.
Proof. intros [|m]; cbn; ring. Qed.
(** One component *)
Definition component (n : nat) (chi : nat -> R) (m : nat) (x y : R) : R :=
  eps m * total n (fun k => chi k * T (sqrt (1 - x * x) * sqrt (1 - y * y)) x y m k).
Section Entry.
Variables (m n : nat) (x y : R) (a b chi : array).
Hypothesis Ha : forall k, (k < n)%nat -> a k = Yv m x k.
Hypothesis Hb : forall k, (k < n)%nat -> b k = Yv m y k.
Lemma entry_pp : (alternate m n (fun k => chi k * a k * b k) + alternate (m + 1) n (fun k => chi k * a k * b k)) * (2 - (if (m =? 0)%nat then 1 else 0)) = component n chi m x y.
Proof.
  rewrite eps_code. unfold component. rewrite Rmult_comm. f_equal.
  rewrite !alternate_sum. transitivity (alternate m n (fun k => chi k * Yv m x k * Yv m y k) + alternate (m + 1) n (fun k => chi k * Yv m x k * Yv m y k)).
  { rewrite !alternate_sum. f_equal; apply total_ext; intros k Hk; rewrite Ha, Hb by exact Hk; reflexivity. }
  rewrite alternate_plus. { apply total_ext. intros k _. rewrite <- Yv_prod. ring. }
  intros k Hk. rewrite Yv_low by exact Hk. ring.
Qed.
Lemma entry_mp : (alternate m n (fun k => chi k * a k * b k) - alternate (m + 1) n (fun k => chi k * a k * b k)) * (2 - (if (m =? 0)%nat then 1 else 0)) = component n chi m x (- y).
Proof.
  rewrite eps_code. unfold component. rewrite Rmult_comm. f_equal.
  transitivity (alternate m n (fun k => chi k * Yv m x k * Yv m y k) - alternate (m + 1) n (fun k => chi k * Yv m x k * Yv m y k)).
  { rewrite !alternate_sum. f_equal; apply total_ext; intros k Hk; rewrite Ha, Hb by exact Hk; reflexivity. }
  rewrite alternate_minus.
  - apply total_ext. intros k _. rewrite <- Yv_prod. destruct (Nat.lt_ge_cases k m) as [H|H].
    + rewrite (Yv_low m x k) by exact H. ring.
    + rewrite Yv_opp by exact H. ring.
  - intros k Hk. rewrite Yv_low by exact Hk. ring.
Qed.
End Entry.
(** The components add up to the phase function *)
Lemma components_sum : forall n chi x y f, -1 <= x <= 1 -> -1 <= y <= 1 ->
  total n (fun m => component n chi m x y * cos (INR m * f)) = phase n chi (x * y + sqrt (1 - x * x) * sqrt (1 - y * y) * cos f).
Proof.
  intros n chi x y f Hx Hy. unfold phase.
  assert (sqrt (1 - x * x) * sqrt (1 - y * y) * (sqrt (1 - x * x) * sqrt (1 - y * y)) = (1 - x * x) * (1 - y * y)) as Ss.
  { transitivity ((sqrt (1 - x * x) * sqrt (1 - x * x)) * (sqrt (1 - y * y) * sqrt (1 - y * y))); [ring|]. rewrite !sqrt_sqrt by nra. reflexivity. }
  set (s := sqrt (1 - x * x) * sqrt (1 - y * y)) in *.
  transitivity (total n (fun k => total n (fun m => chi k * (eps m * T s x y m k * cos (INR m * f))))).
  - rewrite total_swap. apply total_ext. intros m _. unfold component. fold s.
    replace (eps m * total n (fun k => chi k * T s x y m k) * cos (INR m * f)) with ((eps m * cos (INR m * f)) * total n (fun k => chi k * T s x y m k)) by ring.
    rewrite <- total_scale. apply total_ext. intros k _. ring.
  - apply total_ext. intros k Hk. rewrite total_scale. f_equal. exact (addition x y s f Ss k n Hk).
Qed.
Lemma component_sym : forall n chi m x y, component n chi m x y = component n chi m y x.
Proof. intros n chi m x y. unfold component. f_equal. apply total_ext. intros k _. unfold T. rewrite (Rmult_comm (sqrt (1 - y * y))). ring. Qed.
Lemma component_opp : forall n chi m x y, component n chi m (- x) (- y) = component n chi m x y.
Proof.
  intros n chi m x y. unfold component. f_equal. apply total_ext. intros k _. rewrite <- !Yv_prod. destruct (Nat.lt_ge_cases k m) as [H|H].
  - rewrite !(Yv_low m _ k) by exact H. ring.
  - rewrite !Yv_opp by exact H. transitivity (chi k * ((-1) ^ (k - m) * (-1) ^ (k - m)) * Yv m x k * Yv m y k); [ring|]. rewrite sign_sq. ring.
Qed.
Lemma phase_func_sum : forall n p c, phase_func n p c = total n (fun l => p l * c l).
Proof. induction n as [|n IH]; intros p c; [reflexivity|]. cbn. rewrite IH. reflexivity. Qed.
Lemma sum_total : forall n f, sum n f = total n f.
Proof. induction n as [|n IH]; intro f; [reflexivity|]. cbn. rewrite IH. reflexivity. Qed.
Lemma direction_dot : forall mu phi mu' phi', dot (direction mu phi) (direction mu' phi') = mu * mu' + sqrt (1 - mu * mu) * sqrt (1 - mu' * mu') * cos (phi - phi').
Proof. intros mu phi mu' phi'. unfold dot, direction. rewrite cos_minus. ring. Qed.
