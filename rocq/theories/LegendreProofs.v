(** The addition theorem of the Legendre polynomials, from the recurrences of the associated functions. *)
From Coq Require Import Reals ZArith Arith Bool Lia Lra Factorial.
From Verif Require Import DeltaMSpec DeltaMProofs ScatSpec.
Open Scope R_scope.

(** (2 m - 1)!! *)
Fixpoint dfact (m : nat) : R := match m with O => 1 | S k => (2 * INR k + 1) * dfact k end.
(** The associated function of order m and degree m + k, without the factor (1 - x^2)^(m/2) *)
Fixpoint qs (m : nat) (x : R) (k : nat) : R :=
  match k with
  | O => dfact m
  | S k' => match k' with
            | O => (2 * INR m + 1) * x * dfact m
            | S j => ((2 * INR m + 2 * INR j + 3) * x * qs m x k' - (2 * INR m + INR j + 1) * qs m x j) / (INR j + 2)
            end
  end.
(** ... of order m and degree l *)
Definition P (m : nat) (x : R) (l : Z) : R := if (l <? Z.of_nat m)%Z then 0 else qs m x (Z.to_nat (l - Z.of_nat m)).

Lemma P_low : forall m x l, (l < Z.of_nat m)%Z -> P m x l = 0.
Proof. intros m x l H. unfold P. destruct (Z.ltb_spec l (Z.of_nat m)); [reflexivity|lia]. Qed.
Lemma P_at : forall m x k, P m x (Z.of_nat (m + k)) = qs m x k.
Proof. intros m x k. unfold P. destruct (Z.ltb_spec (Z.of_nat (m + k)) (Z.of_nat m)); [lia|]. f_equal. lia. Qed.
Lemma qs_step : forall m x j, qs m x (S (S j)) = ((2 * INR m + 2 * INR j + 3) * x * qs m x (S j) - (2 * INR m + INR j + 1) * qs m x j) / (INR j + 2).
Proof. reflexivity. Qed.

Lemma z_cases : forall (m : nat) (l : Z), (l + 1 < Z.of_nat m)%Z \/ (l + 1 = Z.of_nat m)%Z \/ l = Z.of_nat (m + 0) \/ exists j, l = Z.of_nat (m + S j).
Proof.
  intros m l. destruct (Z.lt_ge_cases (l + 1) (Z.of_nat m)); [left; assumption|right].
  destruct (Z.eq_dec (l + 1) (Z.of_nat m)); [left; assumption|right].
  destruct (Z.eq_dec l (Z.of_nat m)); [left; lia|right]. exists (Z.to_nat (l - Z.of_nat m - 1)). lia.
Qed.

Lemma rec1 : forall m x l, (IZR l - INR m + 1) * P m x (l + 1) = (2 * IZR l + 1) * x * P m x l - (IZR l + INR m) * P m x (l - 1).
Proof.
  intros m x l. destruct (z_cases m l) as [C|[C|[C|[j C]]]].
  - rewrite !P_low by lia. ring.
  - replace (IZR l - INR m + 1) with 0.
    2:{ rewrite INR_IZR_INZ, <- C, plus_IZR. ring. }
    rewrite (P_low m x l), (P_low m x (l - 1)) by lia. ring.
  - rewrite (P_low m x (l - 1)) by lia. subst l. rewrite P_at.
    replace (Z.of_nat (m + 0) + 1)%Z with (Z.of_nat (m + 1)) by lia. rewrite P_at. rewrite <- INR_IZR_INZ, plus_INR. cbn [qs INR]. ring.
  - subst l. rewrite P_at. replace (Z.of_nat (m + S j) + 1)%Z with (Z.of_nat (m + S (S j))) by lia.
    replace (Z.of_nat (m + S j) - 1)%Z with (Z.of_nat (m + j)) by lia. rewrite !P_at, qs_step, <- INR_IZR_INZ, plus_INR, S_INR.
    field. pose proof (pos_INR j). lra.
Qed.

(** An odd number is not zero *)
Lemma odd_nz : forall l : Z, 2 * IZR l + 1 <> 0.
Proof. intros l H. rewrite <- mult_IZR, <- plus_IZR in H. apply eq_IZR in H. lia. Qed.
Lemma odd_nz3 : forall l : Z, 2 * IZR l + 3 <> 0.
Proof. intros l H. apply (odd_nz (l + 1)). rewrite plus_IZR. lra. Qed.
Lemma odd_nzm : forall l : Z, 2 * IZR l - 1 <> 0.
Proof. intros l H. apply (odd_nz (l - 1)). rewrite minus_IZR. lra. Qed.

(** Raising the order *)
Lemma rec2_step : forall m x l, (Z.of_nat m <= l + 1)%Z ->
  P (S m) x (l + 1) - P (S m) x (l - 1) = (2 * IZR l + 1) * P m x l ->
  P (S m) x l - P (S m) x (l - 2) = (2 * IZR l - 1) * P m x (l - 1) ->
  (IZR l - INR m + 1 <> 0) ->
  P (S m) x (l + 2) - P (S m) x l = (2 * IZR l + 3) * P m x (l + 1).
Proof.
  intros m x l Hl A1 A0 NZ. pose proof (rec1 m x l) as R0.
  pose proof (rec1 (S m) x (l + 1)) as R1. pose proof (rec1 (S m) x (l - 1)) as R2.
  replace (l + 1 + 1)%Z with (l + 2)%Z in R1 by lia. replace (l + 1 - 1)%Z with l in R1 by lia.
  replace (l - 1 + 1)%Z with l in R2 by lia. replace (l - 1 - 1)%Z with (l - 2)%Z in R2 by lia.
  rewrite plus_IZR, S_INR in R1. rewrite minus_IZR, S_INR in R2.
  pose proof (odd_nz l). pose proof (odd_nz3 l). pose proof (odd_nzm l).
  set (L := IZR l) in *. set (M := INR m) in *.
  assert (P m x l = (P (S m) x (l + 1) - P (S m) x (l - 1)) / (2 * L + 1)) as E1. { rewrite A1. field. assumption. }
  assert (P m x (l - 1) = (P (S m) x l - P (S m) x (l - 2)) / (2 * L - 1)) as E0. { rewrite A0. field. assumption. }
  assert (x * P (S m) x (l + 1) = ((L + 1 - (M + 1) + 1) * P (S m) x (l + 2) + (L + 1 + (M + 1)) * P (S m) x l) / (2 * L + 3)) as X1.
  { apply (Rmult_eq_reg_l (2 * L + 3)); [|assumption]. replace ((2 * L + 3) * (((L + 1 - (M + 1) + 1) * P (S m) x (l + 2) + (L + 1 + (M + 1)) * P (S m) x l) / (2 * L + 3)))
      with ((L + 1 - (M + 1) + 1) * P (S m) x (l + 2) + (L + 1 + (M + 1)) * P (S m) x l) by (field; assumption). rewrite R1. ring. }
  assert (x * P (S m) x (l - 1) = ((L - 1 - (M + 1) + 1) * P (S m) x l + (L - 1 + (M + 1)) * P (S m) x (l - 2)) / (2 * L - 1)) as X2.
  { apply (Rmult_eq_reg_l (2 * L - 1)); [|assumption]. replace ((2 * L - 1) * (((L - 1 - (M + 1) + 1) * P (S m) x l + (L - 1 + (M + 1)) * P (S m) x (l - 2)) / (2 * L - 1)))
      with ((L - 1 - (M + 1) + 1) * P (S m) x l + (L - 1 + (M + 1)) * P (S m) x (l - 2)) by (field; assumption). rewrite R2. ring. }
  apply (Rmult_eq_reg_l (L - M + 1)); [|exact NZ].
  replace ((L - M + 1) * ((2 * L + 3) * P m x (l + 1))) with ((2 * L + 3) * ((L - M + 1) * P m x (l + 1))) by ring.
  rewrite R0, E1, E0.
  replace ((2 * L + 1) * x * ((P (S m) x (l + 1) - P (S m) x (l - 1)) / (2 * L + 1))) with (x * P (S m) x (l + 1) - x * P (S m) x (l - 1)) by (field; assumption).
  rewrite X1, X2. field. split; assumption.
Qed.

Lemma dfact_S : forall m, dfact (S m) = (2 * INR m + 1) * dfact m.
Proof. reflexivity. Qed.
Lemma rec2_nat : forall m x k,
  (P (S m) x (Z.of_nat (m + k) + 1) - P (S m) x (Z.of_nat (m + k) - 1) = (2 * INR (m + k) + 1) * P m x (Z.of_nat (m + k))) /\
  (P (S m) x (Z.of_nat (m + k)) - P (S m) x (Z.of_nat (m + k) - 2) = (2 * INR (m + k) - 1) * P m x (Z.of_nat (m + k) - 1)).
Proof.
  intros m x. induction k as [|k [I1 I0]].
  - split.
    + rewrite (P_low (S m) x (Z.of_nat (m + 0) - 1)) by lia. replace (Z.of_nat (m + 0) + 1)%Z with (Z.of_nat (S m + 0)) by lia. rewrite !P_at.
      cbn [qs]. rewrite dfact_S, plus_INR. cbn [INR]. ring.
    + rewrite !P_low by lia. ring.
  - split.
    + pose proof (rec2_step m x (Z.of_nat (m + k))) as F. rewrite <- INR_IZR_INZ in F.
      replace (Z.of_nat (m + S k) + 1)%Z with (Z.of_nat (m + k) + 2)%Z by lia. replace (Z.of_nat (m + S k) - 1)%Z with (Z.of_nat (m + k)) by lia.
      replace (Z.of_nat (m + S k)) with (Z.of_nat (m + k) + 1)%Z by lia. rewrite F; [|lia|exact I1|exact I0|rewrite plus_INR; pose proof (pos_INR k); lra].
      rewrite !plus_INR, S_INR. ring.
    + replace (Z.of_nat (m + S k) - 1)%Z with (Z.of_nat (m + k)) by lia. replace (Z.of_nat (m + S k)) with (Z.of_nat (m + k) + 1)%Z by lia.
      replace (Z.of_nat (m + k) + 1 - 2)%Z with (Z.of_nat (m + k) - 1)%Z by lia. rewrite I1. rewrite !plus_INR, S_INR. ring.
Qed.
Lemma rec2 : forall m x l, P (S m) x (l + 1) - P (S m) x (l - 1) = (2 * IZR l + 1) * P m x l.
Proof.
  intros m x l. destruct (Z.lt_ge_cases l (Z.of_nat m)) as [H|H].
  - rewrite !P_low by lia. ring.
  - replace l with (Z.of_nat (m + Z.to_nat (l - Z.of_nat m))) by lia. rewrite <- INR_IZR_INZ. apply rec2_nat.
Qed.

(** Lowering the order *)
Lemma rec3 : forall m x l, (2 * IZR l + 1) * (1 - x * x) * P (S m) x l =
  (IZR l + INR m) * (IZR l + INR m + 1) * P m x (l - 1) - (IZR l - INR m) * (IZR l - INR m + 1) * P m x (l + 1).
Proof.
  intros m x l. pose proof (rec2 m x (l - 1)) as A0. pose proof (rec2 m x (l + 1)) as A1.
  pose proof (rec1 (S m) x l) as R. pose proof (rec1 (S m) x (l + 1)) as R1. pose proof (rec1 (S m) x (l - 1)) as R2.
  replace (l + 1 + 1)%Z with (l + 2)%Z in * by lia. replace (l + 1 - 1)%Z with l in * by lia.
  replace (l - 1 + 1)%Z with l in * by lia. replace (l - 1 - 1)%Z with (l - 2)%Z in * by lia.
  rewrite plus_IZR in R1, A1. rewrite minus_IZR in R2, A0. rewrite S_INR in R, R1, R2.
  pose proof (odd_nz l) as N1. pose proof (odd_nz3 l) as N3. pose proof (odd_nzm l) as Nm.
  set (L := IZR l) in *. set (M := INR m) in *.
  set (p2 := P (S m) x (l + 2)) in *. set (p1 := P (S m) x (l + 1)) in *. set (p0 := P (S m) x l) in *.
  set (pm := P (S m) x (l - 1)) in *. set (pmm := P (S m) x (l - 2)) in *.
  assert (P m x (l - 1) = (p0 - pmm) / (2 * L - 1)) as E0. { replace (2 * (L - 1) + 1) with (2 * L - 1) in A0 by ring. rewrite A0. field. assumption. }
  assert (P m x (l + 1) = (p2 - p0) / (2 * L + 3)) as E1. { replace (2 * (L + 1) + 1) with (2 * L + 3) in A1 by ring. rewrite A1. field. assumption. }
  assert (x * p1 = ((L + 1 - (M + 1) + 1) * p2 + (L + 1 + (M + 1)) * p0) / (2 * L + 3)) as X1. { rewrite R1. field. assumption. }
  assert (x * pm = ((L - 1 - (M + 1) + 1) * p0 + (L - 1 + (M + 1)) * pmm) / (2 * L - 1)) as X2. { rewrite R2. field. assumption. }
  replace ((2 * L + 1) * (1 - x * x) * p0) with ((2 * L + 1) * p0 - x * ((2 * L + 1) * x * p0)) by ring.
  replace ((2 * L + 1) * x * p0) with ((L - (M + 1) + 1) * p1 + (L + (M + 1)) * pm) by (rewrite R; ring).
  replace (x * ((L - (M + 1) + 1) * p1 + (L + (M + 1)) * pm)) with ((L - (M + 1) + 1) * (x * p1) + (L + (M + 1)) * (x * pm)) by ring.
  rewrite X1, X2, E0, E1. field. split; assumption.
Qed.

(** Parity *)
Lemma qs_opp : forall m x k, qs m (- x) k = (-1) ^ k * qs m x k /\ qs m (- x) (S k) = (-1) ^ S k * qs m x (S k).
Proof.
  intros m x. induction k as [|k [I0 I1]].
  - split; cbn [qs pow]; ring.
  - split; [exact I1|]. rewrite !qs_step, I0, I1. cbn [pow]. field. pose proof (pos_INR k). lra.
Qed.

(** The term of order m of the degree l *)
Definition weight (l m : nat) : R := INR (fact (l - m)) / INR (fact (l + m)).
Definition T (s : R) (x y : R) (m l : nat) : R := weight l m * s ^ m * P m x (Z.of_nat l) * P m y (Z.of_nat l).
Lemma T_low : forall s x y m l, (l < m)%nat -> T s x y m l = 0.
Proof. intros s x y m l H. unfold T. rewrite (P_low m x) by lia. ring. Qed.

Lemma fact_nz : forall k, INR (fact k) <> 0.
Proof. intro k. apply INR_fact_neq_0. Qed.
Lemma fact_1 : forall k, INR (fact (S k)) = (INR k + 1) * INR (fact k).
Proof. intro k. rewrite fact_simpl, mult_INR, S_INR. reflexivity. Qed.
Lemma weight_order : forall l m, (m < l)%nat -> weight l m = weight l (S m) * ((INR l - INR m) * (INR l + INR m + 1)).
Proof.
  intros l m H. unfold weight. replace (l - m)%nat with (S (l - S m)) by lia. replace (l + S m)%nat with (S (l + m)) by lia.
  rewrite !fact_1, minus_INR, S_INR, plus_INR by lia. field. pose proof (pos_INR l). pose proof (pos_INR m).
  split; [apply fact_nz|lra].
Qed.
Lemma weight_degree : forall l m, (m <= l)%nat -> weight (S l) m * (INR l + INR m + 1) = weight l m * (INR l - INR m + 1).
Proof.
  intros l m H. unfold weight. replace (S l - m)%nat with (S (l - m)) by lia. replace (S l + m)%nat with (S (l + m)) by lia.
  rewrite !fact_1, minus_INR, plus_INR by lia. field. pose proof (pos_INR l). pose proof (pos_INR m).
  split; [apply fact_nz|lra].
Qed.

(** Multiplication of the term by the cosine of the angle *)
Lemma term_mul : forall s x y l m, s * s = (1 - x * x) * (1 - y * y) ->
  (2 * INR (S l) + 1) * (x * y * T s x y (S m) (S l) + s / 2 * (T s x y m (S l) + T s x y (S (S m)) (S l))) =
  (INR (S l) + 1) * T s x y (S m) (S (S l)) + INR (S l) * T s x y (S m) l.
Proof.
  intros s x y l m Ss.
  pose proof (rec1 (S m) x (Z.of_nat (S l))) as Rx. pose proof (rec1 (S m) y (Z.of_nat (S l))) as Ry.
  pose proof (rec2 m x (Z.of_nat (S l))) as Ax. pose proof (rec2 m y (Z.of_nat (S l))) as Ay.
  pose proof (rec3 (S m) x (Z.of_nat (S l))) as Bx. pose proof (rec3 (S m) y (Z.of_nat (S l))) as By.
  rewrite <- INR_IZR_INZ in *.
  replace (Z.of_nat (S l) + 1)%Z with (Z.of_nat (S (S l))) in * by lia. replace (Z.of_nat (S l) - 1)%Z with (Z.of_nat l) in * by lia.
  unfold T.
  assert (2 * INR (S l) + 1 <> 0) as N1. { pose proof (pos_INR (S l)). lra. }
  set (Xu := P (S (S m)) x (Z.of_nat (S l))) in *. set (Yu := P (S (S m)) y (Z.of_nat (S l))) in *.
  set (X := P (S m) x (Z.of_nat (S l))) in *. set (Y := P (S m) y (Z.of_nat (S l))) in *.
  set (Xd := P m x (Z.of_nat (S l))) in *. set (Yd := P m y (Z.of_nat (S l))) in *.
  set (Xp := P (S m) x (Z.of_nat (S (S l)))) in *. set (Yp := P (S m) y (Z.of_nat (S (S l)))) in *.
  set (Xm := P (S m) x (Z.of_nat l)) in *. set (Ym := P (S m) y (Z.of_nat l)) in *.
  set (L := INR (S l)) in *. set (M := INR (S m)) in *.
  assert (x * X = ((L - M + 1) * Xp + (L + M) * Xm) / (2 * L + 1)) as Ex. { rewrite Rx. field. assumption. }
  assert (y * Y = ((L - M + 1) * Yp + (L + M) * Ym) / (2 * L + 1)) as Ey. { rewrite Ry. field. assumption. }
  assert (Xd = (Xp - Xm) / (2 * L + 1)) as Dx. { rewrite Ax. field. assumption. }
  assert (Yd = (Yp - Ym) / (2 * L + 1)) as Dy. { rewrite Ay. field. assumption. }
  assert ((1 - x * x) * Xu = ((L + M) * (L + M + 1) * Xm - (L - M) * (L - M + 1) * Xp) / (2 * L + 1)) as Ux. { rewrite <- Bx. field. assumption. }
  assert ((1 - y * y) * Yu = ((L + M) * (L + M + 1) * Ym - (L - M) * (L - M + 1) * Yp) / (2 * L + 1)) as Uy. { rewrite <- By. field. assumption. }
  pose proof (pos_INR (S m)) as PM. pose proof (pos_INR (S l)) as PL. fold M in PM. fold L in PL.
  cbn [pow].
  transitivity (s * s ^ m * ((2 * L + 1) * (weight (S l) (S m) * (x * X) * (y * Y) + / 2 * (weight (S l) m * Xd * Yd + weight (S l) (S (S m)) * ((1 - x * x) * Xu) * ((1 - y * y) * Yu))))).
  { replace ((1 - x * x) * Xu * ((1 - y * y) * Yu)) with (s * s * Xu * Yu) by (rewrite Ss; ring).
    replace (weight (S l) (S (S m)) * ((1 - x * x) * Xu) * ((1 - y * y) * Yu)) with (weight (S l) (S (S m)) * (s * s) * Xu * Yu) by (rewrite Ss; ring). field. }
  transitivity (s * s ^ m * ((L + 1) * weight (S (S l)) (S m) * Xp * Yp + L * weight l (S m) * Xm * Ym)); [|ring].
  f_equal. rewrite Ex, Ey, Dx, Dy, Ux, Uy.
  destruct (lt_eq_lt_dec (S m) (S l)) as [[H|H]|H].
  - (* below the degree *)
    assert (INR m = M - 1) as Em by (unfold M; rewrite S_INR; ring). assert (INR l = L - 1) as El by (unfold L; rewrite S_INR; ring).
    assert (M + 1 <= L) as Hlt. { unfold M, L. rewrite <- S_INR. apply le_INR. lia. }
    pose proof (weight_order (S l) m ltac:(lia)) as W0. rewrite Em in W0. fold L in W0.
    pose proof (weight_order (S l) (S m) ltac:(lia)) as W1. fold L M in W1.
    pose proof (weight_degree (S l) (S m) ltac:(lia)) as W2. fold L M in W2.
    pose proof (weight_degree l (S m) ltac:(lia)) as W3. rewrite El in W3. fold M in W3.
    set (w := weight (S l) (S (S m))) in *.
    rewrite W0. rewrite W1 in *.
    assert (weight (S (S l)) (S m) = w * (L - M) * (L - M + 1)) as W2'.
    { apply (Rmult_eq_reg_r (L + M + 1)); [rewrite W2; ring|lra]. }
    assert (weight l (S m) = w * (L + M + 1) * (L + M)) as W3'.
    { apply (Rmult_eq_reg_r (L - M)); [|lra]. replace (L - 1 - M + 1) with (L - M) in W3 by ring. rewrite <- W3. ring. }
    rewrite W2', W3'. field. assumption.
  - (* at the degree *)
    assert (m = l) as El by lia. subst m.
    assert (Xm = 0) as Zx by (apply P_low; lia). assert (Ym = 0) as Zy by (apply P_low; lia). rewrite Zx, Zy.
    assert (M = L) as Eq by reflexivity. rewrite Eq in *.
    assert (INR l = L - 1) as El by (unfold L; rewrite S_INR; ring).
    pose proof (weight_order (S l) l ltac:(lia)) as W0. rewrite El in W0. fold L in W0.
    pose proof (weight_degree (S l) (S l) ltac:(lia)) as W2. fold L in W2.
    assert (weight (S l) (S l) = weight (S (S l)) (S l) * (2 * L + 1)) as W2'. { transitivity (weight (S l) (S l) * (L - L + 1)); [ring|]. rewrite <- W2. ring. }
    rewrite W0, W2'. field. assumption.
  - (* above the degree *)
    assert (Xm = 0) as Zx by (apply P_low; lia). assert (Ym = 0) as Zy by (apply P_low; lia). rewrite Zx, Zy.
    destruct (Nat.eq_dec m (S l)) as [E|E].
    + subst m. assert (M = L + 1) as Eq. { unfold M, L. rewrite (S_INR (S l)). reflexivity. } rewrite Eq.
      assert (weight (S l) (S l) = weight (S (S l)) (S (S l)) * ((2 * L + 1) * (2 * L + 2))) as W.
      { unfold weight. replace (S (S l) - S (S l))%nat with (S l - S l)%nat by lia. replace (S (S l) + S (S l))%nat with (S (S (S l + S l))) by lia.
        rewrite !fact_1, S_INR, plus_INR. fold L. field. split; [apply fact_nz|lra]. }
      rewrite W. field. assumption.
    + assert (Xp = 0) as Zp by (apply P_low; lia). assert (Yp = 0) as Zq by (apply P_low; lia). rewrite Zp, Zq. field. assumption.
Qed.
Lemma weight_0 : forall l, weight l 0 = 1.
Proof. intro l. unfold weight. rewrite Nat.sub_0_r, Nat.add_0_r. field. apply fact_nz. Qed.
Lemma term_mul_0 : forall s x y l, s * s = (1 - x * x) * (1 - y * y) ->
  (2 * INR (S l) + 1) * (x * y * T s x y 0 (S l) + s * T s x y 1 (S l)) = (INR (S l) + 1) * T s x y 0 (S (S l)) + INR (S l) * T s x y 0 l.
Proof.
  intros s x y l Ss.
  pose proof (rec1 0 x (Z.of_nat (S l))) as Rx. pose proof (rec1 0 y (Z.of_nat (S l))) as Ry.
  pose proof (rec3 0 x (Z.of_nat (S l))) as Bx. pose proof (rec3 0 y (Z.of_nat (S l))) as By.
  rewrite <- INR_IZR_INZ in *.
  replace (Z.of_nat (S l) + 1)%Z with (Z.of_nat (S (S l))) in * by lia. replace (Z.of_nat (S l) - 1)%Z with (Z.of_nat l) in * by lia.
  unfold T. rewrite !weight_0.
  pose proof (weight_order (S l) 0 ltac:(lia)) as W. rewrite weight_0 in W.
  set (w := weight (S l) 1) in *.
  set (Xu := P 1 x (Z.of_nat (S l))) in *. set (Yu := P 1 y (Z.of_nat (S l))) in *.
  set (X := P 0 x (Z.of_nat (S l))) in *. set (Y := P 0 y (Z.of_nat (S l))) in *.
  set (Xp := P 0 x (Z.of_nat (S (S l)))) in *. set (Yp := P 0 y (Z.of_nat (S (S l)))) in *.
  set (Xm := P 0 x (Z.of_nat l)) in *. set (Ym := P 0 y (Z.of_nat l)) in *.
  assert (1 <= INR (S l)) as PL. { rewrite S_INR. pose proof (pos_INR l). lra. }
  change (INR 0) with 0 in *.
  set (L := INR (S l)) in *. assert (2 * L + 1 <> 0) as N1 by lra.
  assert (w = / (L * (L + 1))) as Ew. { apply (Rmult_eq_reg_r ((L - 0) * (L + 0 + 1))); [rewrite <- W; field; lra|]. apply Rmult_integral_contrapositive; lra. }
  assert (x * X = ((L + 1) * Xp + L * Xm) / (2 * L + 1)) as Ex. { replace ((L + 1) * Xp) with ((L - 0 + 1) * Xp) by ring. rewrite Rx. field. assumption. }
  assert (y * Y = ((L + 1) * Yp + L * Ym) / (2 * L + 1)) as Ey. { replace ((L + 1) * Yp) with ((L - 0 + 1) * Yp) by ring. rewrite Ry. field. assumption. }
  assert ((1 - x * x) * Xu = (L * (L + 1) * Xm - L * (L + 1) * Xp) / (2 * L + 1)) as Ux.
  { apply (Rmult_eq_reg_l (2 * L + 1)); [|assumption]. rewrite <- Rmult_assoc, Bx. field. assumption. }
  assert ((1 - y * y) * Yu = (L * (L + 1) * Ym - L * (L + 1) * Yp) / (2 * L + 1)) as Uy.
  { apply (Rmult_eq_reg_l (2 * L + 1)); [|assumption]. rewrite <- Rmult_assoc, By. field. assumption. }
  transitivity ((2 * L + 1) * ((x * X) * (y * Y) + w * (((1 - x * x) * Xu) * ((1 - y * y) * Yu)))).
  { replace (((1 - x * x) * Xu) * ((1 - y * y) * Yu)) with (s * s * Xu * Yu) by (rewrite Ss; ring). cbn [pow]. ring. }
  rewrite Ex, Ey, Ux, Uy, Ew. cbn [pow]. field. split; [assumption|split; lra].
Qed.

(** A cosine series times 2 cos f *)
Definition eps (m : nat) : R := match m with O => 1 | _ => 2 end.
Definition prev (t : nat -> R) (m : nat) : R := match m with O => t 1%nat | S k => t k end.
Lemma cos_next : forall f a, 2 * cos f * cos a = cos (a + f) + cos (a - f).
Proof. intros f a. rewrite cos_plus, cos_minus. ring. Qed.
Lemma series_shift : forall (t : nat -> R) f N,
  2 * cos f * total (S N) (fun m => eps m * t m * cos (INR m * f)) =
  total (S N) (fun m => eps m * cos (INR m * f) * (prev t m + t (S m))) + 2 * t N * cos (INR (S N) * f) - 2 * t (S N) * cos (INR N * f).
Proof.
  intros t f. induction N as [|N IH].
  - cbn [total eps prev INR]. rewrite !Rmult_0_l, cos_0, !Rmult_1_l. ring.
  - change (total (S (S N)) (fun m => eps m * t m * cos (INR m * f))) with (total (S N) (fun m => eps m * t m * cos (INR m * f)) + eps (S N) * t (S N) * cos (INR (S N) * f)).
    change (total (S (S N)) (fun m => eps m * cos (INR m * f) * (prev t m + t (S m)))) with
      (total (S N) (fun m => eps m * cos (INR m * f) * (prev t m + t (S m))) + eps (S N) * cos (INR (S N) * f) * (prev t (S N) + t (S (S N)))).
    rewrite Rmult_plus_distr_l, IH. cbn [eps prev].
    replace (2 * cos f * (2 * t (S N) * cos (INR (S N) * f))) with (2 * t (S N) * (2 * cos f * cos (INR (S N) * f))) by ring.
    rewrite cos_next. replace (INR (S N) * f + f) with (INR (S (S N)) * f) by (rewrite (S_INR (S N)); ring).
    replace (INR (S N) * f - f) with (INR N * f) by (rewrite (S_INR N); ring). ring.
Qed.

Section Addition.
Variables (x y s f : R).
Hypothesis Ss : s * s = (1 - x * x) * (1 - y * y).
Let z := x * y + s * cos f.
Definition series (N l : nat) : R := total N (fun m => eps m * T s x y m l * cos (INR m * f)).
Lemma series_step : forall N l, (S l < N)%nat ->
  (2 * INR (S l) + 1) * z * series (S N) (S l) = (INR (S l) + 1) * series (S N) (S (S l)) + INR (S l) * series (S N) l.
Proof.
  intros N l H. unfold z, series.
  replace ((2 * INR (S l) + 1) * (x * y + s * cos f) * total (S N) (fun m => eps m * T s x y m (S l) * cos (INR m * f)))
    with ((2 * INR (S l) + 1) * (x * y * total (S N) (fun m => eps m * T s x y m (S l) * cos (INR m * f)) +
      s / 2 * (2 * cos f * total (S N) (fun m => eps m * T s x y m (S l) * cos (INR m * f))))) by field.
  rewrite (series_shift (fun m => T s x y m (S l))). rewrite (T_low s x y N), (T_low s x y (S N)) by lia.
  rewrite <- !total_scale. rewrite Rmult_0_r, !Rmult_0_l. rewrite Rplus_0_r, Rminus_0_r, <- !total_scale, <- !total_plus, <- total_scale.
  apply total_ext. intros m Hm. destruct m as [|m]; cbn [eps prev].
  - transitivity (1 * cos (INR 0 * f) * ((2 * INR (S l) + 1) * (x * y * T s x y 0 (S l) + s * T s x y 1 (S l)))); [field|].
    rewrite (term_mul_0 s x y l Ss). ring.
  - transitivity (2 * cos (INR (S m) * f) * ((2 * INR (S l) + 1) * (x * y * T s x y (S m) (S l) + s / 2 * (T s x y m (S l) + T s x y (S (S m)) (S l))))); [field|].
    rewrite (term_mul s x y l m Ss). ring.
Qed.
Lemma total_first : forall N k g, (forall m, (k <= m)%nat -> g m = 0) -> total (k + N) g = total k g.
Proof. induction N as [|N IH]; intros k g Z. { rewrite Nat.add_0_r. reflexivity. } rewrite Nat.add_succ_r. cbn [total]. rewrite IH, Z by (assumption || lia). ring. Qed.
Lemma series_0 : forall N, (0 < N)%nat -> series N 0 = 1.
Proof.
  intros N H. unfold series. replace N with (1 + (N - 1))%nat by lia. rewrite total_first.
  - cbn [total eps]. unfold T. rewrite weight_0. change (Z.of_nat 0) with (Z.of_nat (0 + 0)). rewrite !P_at. cbn [qs dfact pow INR]. rewrite Rmult_0_l, cos_0. ring.
  - intros m Hm. rewrite T_low by lia. ring.
Qed.
Lemma series_1 : forall N, (1 < N)%nat -> series N 1 = z.
Proof.
  intros N H. unfold series. replace N with (2 + (N - 2))%nat by lia. rewrite total_first.
  - cbn [total eps]. unfold T. rewrite weight_0. rewrite (P_at 0 x 1 : P 0 x (Z.of_nat 1) = _), (P_at 0 y 1 : P 0 y (Z.of_nat 1) = _).
    rewrite (P_at 1 x 0 : P 1 x (Z.of_nat 1) = _), (P_at 1 y 0 : P 1 y (Z.of_nat 1) = _). unfold weight. cbn [qs dfact pow INR fact Nat.sub Nat.add Nat.mul]. rewrite Rmult_0_l, cos_0, (Rmult_1_l f).
    unfold z. field.
  - intros m Hm. rewrite T_low by lia. ring.
Qed.
Theorem addition : forall l N, (l < N)%nat -> series N l = legendre l z.
Proof.
  assert (forall l N, ((l < N)%nat -> series N l = legendre l z) /\ ((S l < N)%nat -> series N (S l) = legendre (S l) z)) as Q; [|intros l N; apply Q].
  induction l as [|l IH]; intros N.
  - split; intro H; [rewrite series_0 by lia; reflexivity|rewrite series_1 by lia; reflexivity].
  - split; [apply IH|]. intro H. destruct N as [|N]; [lia|]. destruct (IH (S N)) as [I0 I1].
    pose proof (series_step N l ltac:(lia)) as E. rewrite I0, I1 in E by lia.
    change (legendre (S (S l)) z) with (((2 * INR (S l) + 1) * z * legendre (S l) z - INR (S l) * legendre l z) / (INR (S l) + 1)).
    rewrite E. field. pose proof (pos_INR (S l)). lra.
Qed.
End Addition.
