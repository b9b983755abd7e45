(** A matrix that is symmetric and positive with respect to an inner product has a basis of real eigenvectors.  The eigenvectors are the limits
    of powers of the matrix. *)
From Coq Require Import Reals Arith Lia Lra ConstructiveEpsilon Rtopology Rseries SeqProp.
From Verif Require Import DeltaMSpec DeltaMProofs SingleProofs AddingModel AddingSpec AddingMat AddingDeriv EigSpec EigMat EigProofs EigCore EigEnergy.
Open Scope R_scope.

(* ------------------------------------------------------------------------- *)
(** * Convergent subsequences                                                 *)

Lemma pick_close : forall (u : nat -> R) l, (forall eps N, 0 < eps -> exists p, (N <= p)%nat /\ Rabs (u p - l) < eps) ->
  exists psi : nat -> nat, forall k, (k <= psi k)%nat /\ Rabs (u (psi k) - l) < / (INR k + 1).
Proof.
  intros u l H.
  assert (forall k : nat, { p | (k <= p)%nat /\ Rabs (u p - l) < / (INR k + 1) }) as Q.
  { intro k. apply constructive_indefinite_ground_description_nat.
    - intro p. destruct (le_dec k p); [|right; tauto]. destruct (Rlt_dec (Rabs (u p - l)) (/ (INR k + 1))); [left; tauto|right; tauto].
    - apply H. apply Rinv_0_lt_compat. pose proof (pos_INR k). lra. }
  exists (fun k => proj1_sig (Q k)). intro k. exact (proj2_sig (Q k)).
Qed.
Lemma small_inv : forall e, 0 < e -> exists N, forall k, (N <= k)%nat -> / (INR k + 1) < e.
Proof.
  intros e He. destruct (archimed_cor1 e He) as [N [H1 H2]]. exists N. intros k Hk. eapply Rle_lt_trans; [|exact H1].
  apply Rinv_le_contravar; [apply lt_0_INR; exact H2|]. apply le_INR in Hk. lra.
Qed.
Lemma subsequence : forall u : nat -> R, (forall p, -1 <= u p <= 1) -> exists psi l, (forall k, (k <= psi k)%nat) /\ Un_cv (fun k => u (psi k)) l.
Proof.
  intros u B. destruct (Bolzano_Weierstrass u (fun c => -1 <= c <= 1) (compact_P3 (-1) 1) B) as [l Hl].
  destruct (pick_close u l) as [psi Hpsi].
  - intros e N He. destruct (Hl (disc l (mkposreal e He)) N) as [p [Hp1 Hp2]].
    + exists (mkposreal e He). intros y Hy. exact Hy.
    + exists p. split; [exact Hp1|exact Hp2].
  - exists psi, l. split; [intro k; apply Hpsi|]. intros e He. destruct (small_inv e He) as [N HN]. exists N. intros k Hk. unfold R_dist.
    eapply Rlt_trans; [apply Hpsi|]. apply HN. lia.
Qed.
Lemma cv_sub : forall (u : nat -> R) l (psi : nat -> nat), (forall k, (k <= psi k)%nat) -> Un_cv u l -> Un_cv (fun k => u (psi k)) l.
Proof. intros u l psi H C e He. destruct (C e He) as [N HN]. exists N. intros k Hk. apply HN. specialize (H k). lia. Qed.
Lemma subsequences : forall n (z : nat -> nat -> R), (forall p i, (i < n)%nat -> -1 <= z p i <= 1) ->
  exists psi (l : nat -> R), (forall k, (k <= psi k)%nat) /\ forall i, (i < n)%nat -> Un_cv (fun k => z (psi k) i) (l i).
Proof.
  induction n as [|n IH]; intros z B.
  - exists (fun k => k), (fun _ => 0). split; [auto|]. intros i Hi. lia.
  - destruct (IH z) as [psi [l [H1 H2]]]. { intros p i Hi. apply B. lia. }
    destruct (subsequence (fun k => z (psi k) n)) as [psi' [l' [H1' H2']]]. { intro p. apply B. lia. }
    exists (fun k => psi (psi' k)), (fun i => if Nat.eqb i n then l' else l i). split.
    + intro k. specialize (H1 (psi' k)). specialize (H1' k). lia.
    + intros i Hi. destruct (Nat.eqb_spec i n) as [->|N]; [exact H2'|]. apply (cv_sub (fun k => z (psi k) i) (l i) psi' H1'). apply H2. lia.
Qed.
Lemma cv_const : forall c, Un_cv (fun _ => c) c.
Proof. intros c e He. exists 0%nat. intros. unfold R_dist. rewrite Rminus_diag_eq, Rabs_R0 by reflexivity. exact He. Qed.
Lemma cv_total : forall n (f : nat -> nat -> R) l, (forall i, (i < n)%nat -> Un_cv (fun k => f k i) (l i)) -> Un_cv (fun k => total n (f k)) (total n l).
Proof.
  induction n as [|n IH]; intros f l H; cbn [total]; [apply cv_const|].
  apply (CV_plus (fun k => total n (f k)) (fun k => f k n)); [apply IH; auto|apply H; lia].
Qed.
Lemma cv_abs : forall u l, Un_cv u l -> Un_cv (fun k => Rabs (u k)) (Rabs l).
Proof.
  intros u l C e He. destruct (C e He) as [N HN]. exists N. intros k Hk. unfold R_dist in *. eapply Rle_lt_trans; [apply Rabs_triang_inv2|]. apply HN, Hk.
Qed.
Lemma cv_eq : forall u v l, (forall k, u k = v k) -> Un_cv u l -> Un_cv v l.
Proof. intros u v l E C e He. destruct (C e He) as [N HN]. exists N. intros k Hk. rewrite <- E. apply HN, Hk. Qed.

(* ------------------------------------------------------------------------- *)
(** * Positive forms                                                          *)

Section Space.
Variable n : nat.
Notation "a *v v" := (mv n a v) (at level 40, left associativity).
Definition nonzero (u : vec) : Prop := exists i, (i < n)%nat /\ u i <> 0.
Definition lin (a : R) (u : vec) (b : R) (v : vec) : vec := fun i => a * u i + b * v i.
Definition pairing (G : mat) (u v : vec) : R := total n (fun i => u i * (G *v v) i).
Lemma mv_lin : forall m a u b v i, (m *v lin a u b v) i = a * (m *v u) i + b * (m *v v) i.
Proof. intros. unfold mv, lin. rewrite <- !total_scale, <- total_plus. apply total_ext. intros. ring. Qed.
Lemma mv_same : forall m u v i, veq n u v -> (m *v u) i = (m *v v) i.
Proof. intros m u v i E. unfold mv. apply total_ext. intros k Hk. rewrite (E k Hk). reflexivity. Qed.
Lemma pair_ext : forall G u u' v v', veq n u u' -> veq n v v' -> pairing G u v = pairing G u' v'.
Proof. intros G u u' v v' E E'. unfold pairing. apply total_ext. intros i Hi. rewrite (E i Hi), (mv_same G v v' i E'). reflexivity. Qed.
Lemma pair_lin_r : forall G w a u b v, pairing G w (lin a u b v) = a * pairing G w u + b * pairing G w v.
Proof. intros. unfold pairing. rewrite <- !total_scale, <- total_plus. apply total_ext. intros i _. rewrite mv_lin. ring. Qed.
Lemma pair_lin_l : forall G w a u b v, pairing G (lin a u b v) w = a * pairing G u w + b * pairing G v w.
Proof. intros. unfold pairing. rewrite <- !total_scale, <- total_plus. apply total_ext. intros i _. unfold lin. ring. Qed.
Lemma pair_zero : forall G u v, (forall i, (i < n)%nat -> v i = 0) -> pairing G v u = 0.
Proof. intros G u v Z. unfold pairing. apply total_zero. intros i Hi. rewrite (Z i Hi). ring. Qed.
Lemma zero_or : forall u, nonzero u \/ forall i, (i < n)%nat -> u i = 0.
Proof.
  intro u. unfold nonzero. induction n as [|k IH]; [right; intros; lia|].
  destruct IH as [[i [Hi N]]|Z]; [left; exists i; split; [lia|exact N]|].
  destruct (Req_dec (u k) 0) as [E|E]; [right|left; exists k; split; [lia|exact E]]. intros i Hi. destruct (Nat.eq_dec i k) as [->|N]; [exact E|apply Z; lia].
Qed.

(** Cauchy and Schwarz *)
Lemma schwarz : forall b : vec -> vec -> R, (forall u v, b u v = b v u) ->
  (forall w x u y v, b w (lin x u y v) = x * b w u + y * b w v) -> (forall u, 0 <= b u u) -> forall u v, 0 < b v v -> b u v * b u v <= b u u * b v v.
Proof.
  intros b Sy Li Po u v Pv. pose proof (Po (lin (b v v) u (- b u v) v)) as H.
  rewrite Li, (Sy (lin _ _ _ _) u), (Sy (lin _ _ _ _) v), !Li, (Sy v u) in H.
  assert (b v v * (b u u * b v v - b u v * b u v) >= 0) as Q by lra.
  assert (0 <= b u u * b v v - b u v * b u v); [|lra]. apply Rnot_lt_le. intro L. assert (b v v * (b u u * b v v - b u v * b u v) < 0) by nra. lra.
Qed.

Variables G M : mat.
Notation ip := (pairing G).
Hypothesis Gsym : forall u v, ip u v = ip v u.
Hypothesis Gpos : forall u, nonzero u -> 0 < ip u u.
Hypothesis Mself : forall u v, ip (M *v u) v = ip u (M *v v).
Hypothesis Mpos : forall u, nonzero u -> 0 < ip u (M *v u).

Lemma ip_nonneg : forall u, 0 <= ip u u.
Proof. intro u. destruct (zero_or u) as [N|Z]; [left; apply Gpos, N|right; symmetry; apply pair_zero, Z]. Qed.
Lemma ip_M_nonneg : forall u, 0 <= ip u (M *v u).
Proof. intro u. destruct (zero_or u) as [N|Z]; [left; apply Mpos, N|right; symmetry; apply pair_zero, Z]. Qed.
Lemma M_nonzero : forall u, nonzero u -> nonzero (M *v u).
Proof.
  intros u N. destruct (zero_or (M *v u)) as [N'|Z]; [exact N'|]. exfalso. pose proof (Mpos u N) as P. rewrite Gsym, (pair_zero G u _ Z) in P. lra.
Qed.

(** Powers *)
Fixpoint pw (u : vec) (p : nat) : vec := match p with O => u | S q => M *v pw u q end.
Definition moment (u : vec) (p : nat) : R := ip u (pw u p).
Lemma pw_nonzero : forall u p, nonzero u -> nonzero (pw u p).
Proof. intros u p N. induction p as [|p IH]; [exact N|]. apply M_nonzero, IH. Qed.
Lemma pw_pair : forall u p q, ip (pw u p) (pw u q) = moment u (p + q).
Proof. intros u p. induction p as [|p IH]; intro q; [reflexivity|]. cbn [pw]. rewrite Mself. change (M *v pw u q) with (pw u (S q)). rewrite IH. f_equal. lia. Qed.
Lemma half : forall p, (exists q, p = q + q)%nat \/ (exists q, p = q + S q)%nat.
Proof. induction p as [|p [[q ->]|[q ->]]]; [left; exists 0%nat; lia|right; exists q; lia|left; exists (S q); lia]. Qed.
Lemma moment_pos : forall u p, nonzero u -> 0 < moment u p.
Proof.
  intros u p N. destruct (half p) as [[q ->]|[q ->]]; rewrite <- pw_pair.
  - apply Gpos, pw_nonzero, N.
  - cbn [pw]. apply Mpos, pw_nonzero, N.
Qed.
Lemma moment_convex : forall u p, nonzero u -> moment u (S p) * moment u (S p) <= moment u p * moment u (S (S p)).
Proof.
  intros u p N. destruct (half p) as [[q ->]|[q ->]].
  - replace (S (S (q + q))) with (S q + S q)%nat by lia. replace (S (q + q)) with (q + S q)%nat by lia. rewrite <- !pw_pair.
    apply (schwarz ip Gsym); [intros; apply pair_lin_r|exact ip_nonneg|apply Gpos, pw_nonzero, N].
  - replace (S (S (q + S q))) with (S q + S (S q))%nat by lia. replace (S (q + S q)) with (q + S (S q))%nat by lia. rewrite <- !pw_pair. cbn [pw].
    apply (schwarz (fun a b => ip a (M *v b))).
    + intros a b. rewrite <- Mself. apply Gsym.
    + intros w x a y b. rewrite <- !Mself. apply pair_lin_r.
    + exact ip_M_nonneg.
    + apply Mpos. exact (pw_nonzero u (S q) N).
Qed.
Definition ratio (u : vec) (p : nat) : R := moment u (S p) / moment u p.
Lemma ratio_mono : forall u, nonzero u -> Un_growing (ratio u).
Proof.
  intros u N p. unfold ratio. pose proof (moment_pos u p N). pose proof (moment_pos u (S p) N). pose proof (moment_convex u p N).
  apply (Rmult_le_reg_r (moment u p * moment u (S p))); [nra|].
  replace (moment u (S p) / moment u p * (moment u p * moment u (S p))) with (moment u (S p) * moment u (S p)) by (field; lra).
  replace (moment u (S (S p)) / moment u (S p) * (moment u p * moment u (S p))) with (moment u p * moment u (S (S p))) by (field; lra). assumption.
Qed.

(** The powers grow at most geometrically *)
Definition size (u : vec) : R := total n (fun i => Rabs (u i)).
Definition gain (m : mat) : R := total n (fun i => total n (fun j => Rabs (m i j))).
Lemma size_nonneg : forall u, 0 <= size u.
Proof. intro u. apply total_nonneg. intros. apply Rabs_pos. Qed.
Lemma entry_size : forall u i, (i < n)%nat -> Rabs (u i) <= size u.
Proof. intros u i Hi. apply (total_ge_one n (fun i => Rabs (u i)) i); [intros; apply Rabs_pos|exact Hi]. Qed.
Lemma mv_entry : forall m u i, Rabs ((m *v u) i) <= total n (fun j => Rabs (m i j)) * size u.
Proof.
  intros m u i. unfold mv. eapply Rle_trans; [apply total_abs|]. rewrite <- total_scale_r. apply total_mono. intros j Hj.
  rewrite Rabs_mult. apply Rmult_le_compat_l; [apply Rabs_pos|apply entry_size, Hj].
Qed.
Lemma mv_size : forall m u, size (m *v u) <= gain m * size u.
Proof. intros m u. unfold gain. rewrite <- total_scale_r. apply total_mono. intros i _. apply mv_entry. Qed.
Lemma gain_nonneg : forall m, 0 <= gain m.
Proof. intro m. apply total_nonneg. intros. apply total_nonneg. intros. apply Rabs_pos. Qed.
Lemma pair_size : forall m u v, Rabs (pairing m u v) <= size u * (gain m * size v).
Proof.
  intros m u v. unfold pairing. eapply Rle_trans; [apply total_abs|]. unfold size at 1. rewrite <- total_scale_r. apply total_mono. intros i Hi.
  rewrite Rabs_mult. apply Rmult_le_compat_l; [apply Rabs_pos|]. eapply Rle_trans; [apply entry_size, Hi|apply mv_size].
Qed.
Lemma pw_size : forall u p, size (pw u p) <= gain M ^ p * size u.
Proof.
  intros u p. induction p as [|p IH]; cbn [pw pow]; [lra|]. eapply Rle_trans; [apply mv_size|]. rewrite Rmult_assoc. apply Rmult_le_compat_l; [apply gain_nonneg|exact IH].
Qed.
Lemma moment_growth : forall u j k, nonzero u -> moment u j * ratio u j ^ k <= moment u (j + k).
Proof.
  intros u j k N. induction k as [|k IH]; [rewrite Nat.add_0_r; cbn; lra|]. cbn [pow]. rewrite Nat.add_succ_r.
  assert (moment u (S (j + k)) = moment u (j + k) * ratio u (j + k)) as ->. { unfold ratio. field. pose proof (moment_pos u (j + k) N). lra. }
  replace (moment u j * (ratio u j * ratio u j ^ k)) with (moment u j * ratio u j ^ k * ratio u j) by ring.
  assert (0 < ratio u j) as Rj. { unfold ratio. apply Rdiv_lt_0_compat; apply moment_pos, N. }
  assert (ratio u j <= ratio u (j + k)) as Mo. { apply Rge_le, growing_prop; [apply ratio_mono, N|lia]. }
  apply Rmult_le_compat; try lra. apply Rmult_le_pos; [left; apply moment_pos, N|apply pow_le; lra].
Qed.
Lemma ratio_bound : forall u j, nonzero u -> ratio u j <= gain M + 1.
Proof.
  intros u j N. apply Rnot_lt_le. intro L. set (K := gain M + 1) in *. pose proof (gain_nonneg M) as Kn. assert (1 <= K) as K1 by (unfold K; lra).
  set (C := size u * (gain G * size u) * K ^ j).
  assert (forall k, moment u j * (ratio u j / K) ^ k <= C) as B.
  { intro k. pose proof (moment_growth u j k N) as H.
    assert (moment u (j + k) <= size u * (gain G * size u) * K ^ (j + k)) as U.
    { eapply Rle_trans; [apply Rle_abs|]. eapply Rle_trans; [apply pair_size|]. rewrite (Rmult_assoc (size u)). apply Rmult_le_compat_l; [apply size_nonneg|].
      rewrite Rmult_assoc. apply Rmult_le_compat_l; [apply gain_nonneg|]. eapply Rle_trans; [apply pw_size|]. rewrite Rmult_comm.
      apply Rmult_le_compat_l; [apply size_nonneg|]. apply pow_incr. unfold K. lra. }
    assert (0 < K ^ k) as Kk by (apply pow_lt; lra). apply (Rmult_le_reg_r (K ^ k)); [exact Kk|]. unfold Rdiv. rewrite Rpow_mult_distr, pow_inv.
    replace (moment u j * (ratio u j ^ k * / K ^ k) * K ^ k) with (moment u j * ratio u j ^ k) by (field; lra).
    unfold C. rewrite Rmult_assoc, <- pow_add. lra. }
  assert (1 < ratio u j / K) as Q. { apply (Rmult_lt_reg_r K); [lra|]. unfold Rdiv. rewrite Rmult_assoc, Rinv_l by lra. lra. }
  pose proof (moment_pos u j N) as Pj.
  destruct (Pow_x_infinity (ratio u j / K) ltac:(rewrite Rabs_right; lra) (C / moment u j + 1)) as [k0 Hk]. specialize (Hk k0 (le_n _)).
  rewrite Rabs_right in Hk by (apply Rle_ge, pow_le; lra). specialize (B k0).
  assert (moment u j * (C / moment u j + 1) <= C) as Bad. { eapply Rle_trans; [apply Rmult_le_compat_l; [lra|apply Rge_le, Hk]|exact B]. }
  replace (moment u j * (C / moment u j + 1)) with (C + moment u j) in Bad by (field; lra). lra.
Qed.
Lemma ratio_cv : forall u, nonzero u -> exists rho, 0 < rho /\ Un_cv (ratio u) rho.
Proof.
  intros u N. destruct (growing_cv (ratio u) (ratio_mono u N)) as [rho Hr].
  - exists (gain M + 1). intros x [p ->]. apply ratio_bound, N.
  - exists rho. split; [|exact Hr]. pose proof (growing_ineq (ratio u) rho (ratio_mono u N) Hr 0) as H.
    assert (0 < ratio u 0) by (unfold ratio; apply Rdiv_lt_0_compat; apply moment_pos, N). lra.
Qed.

(** Limits of the form *)
Lemma cv_mv : forall m (z : nat -> vec) l, (forall i, (i < n)%nat -> Un_cv (fun k => z k i) (l i)) -> forall i, Un_cv (fun k => (m *v z k) i) ((m *v l) i).
Proof. intros m z l C i. unfold mv. apply (cv_total n (fun k j => m i j * z k j)). intros j Hj. apply (CV_mult (fun _ => m i j)); [apply cv_const|apply C, Hj]. Qed.
Lemma cv_pair : forall m (z w : nat -> vec) l l', (forall i, (i < n)%nat -> Un_cv (fun k => z k i) (l i)) -> (forall i, (i < n)%nat -> Un_cv (fun k => w k i) (l' i)) ->
  Un_cv (fun k => pairing m (z k) (w k)) (pairing m l l').
Proof.
  intros m z w l l' C C'. unfold pairing. apply (cv_total n (fun k i => z k i * (m *v w k) i)). intros i Hi.
  apply (CV_mult (fun k => z k i)); [apply C, Hi|]. apply (cv_mv m w l' C' i).
Qed.
Lemma size_pos : forall u, nonzero u -> 0 < size u.
Proof. intros u [i [Hi N]]. eapply Rlt_le_trans; [|apply (entry_size u i Hi)]. apply Rabs_pos_lt, N. Qed.
Lemma size_scale : forall c u, size (fun i => c * u i) = Rabs c * size u.
Proof. intros c u. unfold size. rewrite <- total_scale. apply total_ext. intros. apply Rabs_mult. Qed.
Lemma pair_scale : forall m c u d v, pairing m (fun i => c * u i) (fun i => d * v i) = c * d * pairing m u v.
Proof.
  intros. unfold pairing. rewrite <- total_scale. apply total_ext. intros i _.
  replace ((m *v (fun i0 => d * v i0)) i) with (d * (m *v v) i); [ring|]. unfold mv. rewrite <- total_scale. apply total_ext. intros. ring.
Qed.
Lemma pw_orthogonal : forall u v lam p, veq n (M *v v) (fun i => lam * v i) -> ip u v = 0 -> ip (pw u p) v = 0.
Proof.
  intros u v lam p E O. induction p as [|p IH]; [exact O|]. cbn [pw]. rewrite Mself.
  rewrite (pair_ext G (pw u p) (fun i => 1 * pw u p i) (M *v v) (fun i => lam * v i)); [rewrite pair_scale, IH; ring| |exact E]. intros i _. ring.
Qed.

(** The limit of the powers of a vector is an eigenvector *)
Lemma power : forall u, nonzero u -> exists rho z, 0 < rho /\ nonzero z /\ veq n (M *v z) (fun i => rho * z i) /\
  forall v lam, veq n (M *v v) (fun i => lam * v i) -> ip u v = 0 -> ip z v = 0.
Proof.
  intros u N. destruct (ratio_cv u N) as [rho [Rp Rc]].
  set (y := fun p : nat => (fun i : nat => / size (pw u p) * pw u p i) : vec).
  assert (forall p, 0 < size (pw u p)) as Sp by (intro; apply size_pos, pw_nonzero, N).
  assert (forall p, size (y p) = 1) as S1.
  { intro p. unfold y. rewrite size_scale, Rabs_right; [field; specialize (Sp p); lra|]. apply Rle_ge. left. apply Rinv_0_lt_compat, Sp. }
  destruct (subsequences n y) as [psi [z [P1 P2]]].
  { intros p i Hi. pose proof (entry_size (y p) i Hi) as H. rewrite S1 in H. apply Rabs_le_between in H || (apply Rabs_def2 in H || idtac). revert H. unfold Rabs. destruct (Rcase_abs (y p i)); lra. }
  set (x := fun k => y (psi k)).
  assert (size z = 1) as Z1.
  { apply (UL_sequence (fun k => size (x k))).
    - apply (cv_total n (fun k i => Rabs (x k i))). intros i Hi. apply cv_abs, P2, Hi.
    - apply (cv_eq (fun _ => 1)); [intro k; symmetry; apply S1|apply cv_const]. }
  exists rho, z. refine (conj Rp (conj _ (conj _ _))).
  - destruct (zero_or z) as [NZ|Z]; [exact NZ|]. exfalso. assert (size z = 0); [|lra]. unfold size. apply total_zero. intros i Hi. rewrite (Z i Hi). apply Rabs_R0.
  - set (d := fun v : vec => lin 1 (M *v v) (- rho) v).
    assert (forall v, ip (d v) (d v) = ip (M *v v) (M *v v) - 2 * rho * ip v (M *v v) + rho * rho * ip v v) as Ed.
    { intro v. unfold d. rewrite pair_lin_r, !pair_lin_l, (Gsym (M *v v) v). ring. }
    assert (ip (d z) (d z) = 0) as D0.
    { apply (UL_sequence (fun k => ip (d (x k)) (d (x k)))).
      - apply cv_pair; intros i Hi; unfold d, lin; apply (CV_plus (fun k => 1 * (M *v x k) i) (fun k => - rho * x k i));
          (apply (CV_mult (fun _ => _)); [apply cv_const|]); [apply cv_mv; exact P2|apply P2, Hi|apply cv_mv; exact P2|apply P2, Hi].
      - apply (cv_eq (fun k => ip (x k) (x k) * (ratio u (psi k + psi k) * ratio u (S (psi k + psi k)) - 2 * rho * ratio u (psi k + psi k) + rho * rho))).
        + intro k. rewrite Ed. unfold x, y. set (p := psi k). set (c := / size (pw u p)).
          assert (ip (fun i => c * pw u p i) (fun i => c * pw u p i) = c * c * moment u (p + p)) as ->. { rewrite pair_scale, pw_pair. reflexivity. }
          assert (veq n (M *v (fun i => c * pw u p i)) (fun i => c * pw u (S p) i)) as E1.
          { intros i Hi. cbn [pw]. unfold mv. rewrite <- total_scale. apply total_ext. intros. ring. }
          rewrite (pair_ext G _ _ _ _ E1 E1), (pair_ext G _ _ _ _ (fun i Hi => eq_refl) E1), !pair_scale, !pw_pair.
          replace (S p + S p)%nat with (S (S (p + p))) by lia. replace (p + S p)%nat with (S (p + p)) by lia. unfold ratio.
          pose proof (moment_pos u (p + p) N). pose proof (moment_pos u (S (p + p)) N). field. lra.
        + replace 0 with (ip z z * (rho * rho - 2 * rho * rho + rho * rho)) by ring.
          assert (forall k, (k <= psi k + psi k)%nat) as L1 by (intro k; specialize (P1 k); lia).
          assert (forall k, (k <= S (psi k + psi k))%nat) as L2 by (intro k; specialize (P1 k); lia).
          pose proof (cv_sub (ratio u) rho (fun k => (psi k + psi k)%nat) L1 Rc) as C1. pose proof (cv_sub (ratio u) rho (fun k => S (psi k + psi k)) L2 Rc) as C2. cbn beta in C1, C2.
          apply (CV_mult (fun k => ip (x k) (x k))); [apply cv_pair; exact P2|].
          apply (CV_plus (fun k => ratio u (psi k + psi k) * ratio u (S (psi k + psi k)) - 2 * rho * ratio u (psi k + psi k)) (fun _ => rho * rho)); [|apply cv_const].
          apply (CV_minus (fun k => ratio u (psi k + psi k) * ratio u (S (psi k + psi k)))); [apply (CV_mult (fun k => ratio u (psi k + psi k))); assumption|].
          apply (CV_mult (fun _ => 2 * rho)); [apply cv_const|exact C1]. }
    intros i Hi. destruct (zero_or (d z)) as [NZ|Z]; [pose proof (Gpos _ NZ); lra|]. specialize (Z i Hi). unfold d, lin in Z. lra.
  - intros v lam E O. apply (UL_sequence (fun k => ip (x k) v)).
    + apply (cv_pair G x (fun _ => v)); [exact P2|]. intros i _. apply cv_const.
    + apply (cv_eq (fun _ => 0)); [|apply cv_const]. intro k. unfold x, y.
      rewrite (pair_ext G _ (fun i => / size (pw u (psi k)) * pw u (psi k) i) v (fun i => 1 * v i)); [|intros i _; reflexivity|intros i _; ring].
      rewrite pair_scale, (pw_orthogonal u v lam (psi k) E O). ring.
Qed.

(** Orthonormal families of eigenvectors can be extended to a basis *)
Definition family (k : nat) (lam : nat -> R) (V : nat -> vec) : Prop :=
  (forall a b, (a < k)%nat -> (b < k)%nat -> ip (V a) (V b) = ident a b) /\
  (forall a, (a < k)%nat -> 0 < lam a /\ veq n (M *v V a) (fun i => lam a * V a i)).
Lemma total_ident : forall m j (f : nat -> R), (j < m)%nat -> total m (fun i => ident i j * f i) = f j.
Proof.
  intros m j f Hj. rewrite (total_one m j); [unfold ident; rewrite Nat.eqb_refl; ring|exact Hj|].
  intros i _ Ne. unfold ident. destruct (Nat.eqb_spec i j); [contradiction|ring].
Qed.
Definition residual (k : nat) (V : nat -> vec) (j : nat) : vec := fun i => ident i j - total k (fun a => (G *v V a) j * V a i).
Lemma pair_total : forall k (c : nat -> R) (V : nat -> vec) w, ip (fun i => total k (fun a => c a * V a i)) w = total k (fun a => c a * ip (V a) w).
Proof.
  intros. unfold pairing. rewrite (total_ext n _ (fun i => total k (fun a => c a * V a i * (G *v w) i))) by (intros; rewrite total_scale_r; reflexivity).
  rewrite total_swap. apply total_ext. intros a _. rewrite <- total_scale. apply total_ext. intros. ring.
Qed.
Lemma residual_orthogonal : forall k lam V j b, family k lam V -> (j < n)%nat -> (b < k)%nat -> ip (residual k V j) (V b) = 0.
Proof.
  intros k lam V j b [O _] Hj Hb. unfold residual.
  rewrite (pair_ext G _ (lin 1 (fun i => ident i j) (-1) (fun i => total k (fun a => (G *v V a) j * V a i))) (V b) (V b)); [|intros i _; unfold lin; ring|intros i _; reflexivity].
  rewrite pair_lin_l, pair_total.
  assert (ip (fun i => ident i j) (V b) = (G *v V b) j) as ->. { unfold pairing. apply (total_ident n j (G *v V b) Hj). }
  rewrite (total_ext k _ (fun a => ident a b * (G *v V a) j)) by (intros a Ha; rewrite (O a b Ha Hb); ring).
  rewrite (total_ident k b (fun a => (G *v V a) j) Hb). ring.
Qed.
Lemma some_or_all : forall (P Q : nat -> Prop) m, (forall j, P j \/ Q j) -> (exists j, (j < m)%nat /\ P j) \/ forall j, (j < m)%nat -> Q j.
Proof.
  intros P Q m D. induction m as [|m [[j [Hj H]]|H]]; [right; intros; lia|left; exists j; split; [lia|exact H]|].
  destruct (D m) as [Y|Y]; [left; exists m; split; [lia|exact Y]|right]. intros j Hj. destruct (Nat.eq_dec j m) as [->|E]; [exact Y|apply H; lia].
Qed.
Lemma total_ones : forall m, total m (fun _ => 1) = INR m.
Proof. induction m as [|m IH]; [reflexivity|]. rewrite S_INR. cbn [total]. rewrite IH. reflexivity. Qed.
Lemma some_residual : forall k lam V, family k lam V -> (k < n)%nat -> exists j, (j < n)%nat /\ nonzero (residual k V j).
Proof.
  intros k lam V F Hk. destruct (some_or_all (fun j => nonzero (residual k V j)) (fun j => forall i, (i < n)%nat -> residual k V j i = 0) n) as [Y|Z]; [intro j; apply zero_or|exact Y|].
  exfalso. assert (INR n = INR k) as E; [|apply INR_eq in E; lia]. rewrite <- (total_ones n), <- (total_ones k).
  rewrite (total_ext n _ (fun j => total k (fun a => (G *v V a) j * V a j))).
  - rewrite total_swap. apply total_ext. intros a Ha. destruct F as [O _]. rewrite (total_ext n _ (fun j => V a j * (G *v V a) j)) by (intros; ring).
    change (ip (V a) (V a) = 1). rewrite (O a a Ha Ha). unfold ident. rewrite Nat.eqb_refl. reflexivity.
  - intros j Hj. specialize (Z j Hj j Hj). unfold residual, ident in Z. rewrite Nat.eqb_refl in Z. lra.
Qed.
Lemma extend : forall k lam V, family k lam V -> (k < n)%nat -> exists lam' V', family (S k) lam' V'.
Proof.
  intros k lam V F Hk. destruct (some_residual k lam V F Hk) as [j [Hj N]]. destruct (power _ N) as [rho [z [Rp [Nz [Ez Oz]]]]].
  assert (forall b, (b < k)%nat -> ip z (V b) = 0) as O'.
  { intros b Hb. apply (Oz (V b) (lam b)); [apply F, Hb|apply (residual_orthogonal k lam V j b F Hj Hb)]. }
  pose proof (Gpos z Nz) as Pz. set (s := / sqrt (ip z z)).
  assert (s * s * ip z z = 1) as Es. { unfold s. rewrite <- (sqrt_sqrt (ip z z)) at 3 by lra. field. apply Rgt_not_eq, sqrt_lt_R0, Pz. }
  exists (fun a => if Nat.eqb a k then rho else lam a), (fun a => if Nat.eqb a k then (fun i => s * z i) else V a). destruct F as [O E]. split.
  - assert (forall b, (b < k)%nat -> ip (fun i => s * z i) (V b) = 0) as Q.
    { intros b Hb. rewrite (pair_ext G _ (fun i => s * z i) (V b) (fun i => 1 * V b i)); [rewrite pair_scale, (O' b Hb); ring|intros i _; reflexivity|intros i _; ring]. }
    intros a b Ha Hb. destruct (Nat.eqb_spec a k) as [->|Na]; destruct (Nat.eqb_spec b k) as [->|Nb].
    + rewrite pair_scale, Es. unfold ident. rewrite Nat.eqb_refl. reflexivity.
    + rewrite Q by lia. unfold ident. destruct (Nat.eqb_spec k b); [lia|reflexivity].
    + rewrite Gsym, Q by lia. unfold ident. destruct (Nat.eqb_spec a k); [lia|reflexivity].
    + apply O; lia.
  - intros a Ha. destruct (Nat.eqb_spec a k) as [->|Na].
    + split; [exact Rp|]. intros i Hi. assert ((M *v (fun i0 => s * z i0)) i = s * (M *v z) i) as ->. { unfold mv. rewrite <- total_scale. apply total_ext. intros. ring. }
      rewrite (Ez i Hi). ring.
    + apply E. lia.
Qed.
Lemma basis : forall k, (k <= n)%nat -> exists lam V, family k lam V.
Proof.
  induction k as [|k IH]; intro Hk.
  - exists (fun _ => 1), (fun _ _ => 0). split; intros; lia.
  - destruct IH as [lam [V F]]; [lia|]. apply (extend k lam V F). lia.
Qed.
Theorem spectral : exists e, eigensystem n M e /\ forall k, (k < n)%nat -> 0 < fst e k.
Proof.
  destruct (basis n (le_n n)) as [lam [V [O E]]]. exists (lam, fun i k => V k i). split; [|intros k Hk; apply E, Hk]. split; cbn [fst snd].
  - apply injective_nonsingular. intros v Z b Hb.
    assert (ip (fun i => total n (fun a => v a * V a i)) (V b) = 0) as Q.
    { apply pair_zero. intros i Hi. rewrite <- (Z i Hi). unfold mv. apply total_ext. intros. ring. }
    rewrite pair_total, (total_ext n _ (fun a => ident a b * v a)) in Q by (intros a Ha; rewrite (O a b Ha Hb); ring).
    rewrite (total_ident n b v Hb) in Q. exact Q.
  - intros i k Hi Hk. destruct (E k Hk) as [_ Ek]. exact (Ek i Hi).
Qed.
End Space.

(* ------------------------------------------------------------------------- *)
(** * The matrix of the eigenvalue solver                                     *)

Section Medium.
Variable n : nat.
Variables (mu w : vec) (c : R) (Ps Po : mat).
Hypothesis Scat : scatters n mu w c Ps Po.
Hypothesis Wpos : forall i, (i < n)%nat -> 0 < w i.
Notation "a *v v" := (mv n a v) (at level 40, left associativity).
(** W - c W P W, for P the sum or the difference of the phase functions *)
Definition weighed (P : mat) : mat := fun i j => w i * ident i j - c * w i * P i j * w j.
Definition plus : mat := fun i j => Ps i j + Po i j.
Definition minus : mat := fun i j => Ps i j - Po i j.
Lemma ident_row : forall m i (f : nat -> R), (i < m)%nat -> total m (fun j => ident i j * f j) = f i.
Proof.
  intros m i f Hi. rewrite (total_ext m _ (fun j => ident j i * f j)); [apply total_ident, Hi|]. intros j _. unfold ident. rewrite Nat.eqb_sym. reflexivity.
Qed.
Lemma weighed_mv : forall P v i, (i < n)%nat -> (weighed P *v v) i = w i * (v i - c * total n (fun j => P i j * w j * v j)).
Proof.
  intros P v i Hi. unfold mv, weighed.
  rewrite (total_ext n _ (fun k => w i * (ident i k * v k) + - (w i * c) * (P i k * w k * v k))) by (intros; ring).
  rewrite total_plus, !total_scale, (ident_row n i v Hi). ring.
Qed.
Lemma weighed_sym : forall P, (forall i j, (i < n)%nat -> (j < n)%nat -> P i j = P j i) -> forall u v, pairing n (weighed P) u v = pairing n (weighed P) v u.
Proof.
  intros P Sy u v. unfold pairing, mv.
  rewrite (total_ext n _ (fun i => total n (fun k => u i * (weighed P i k * v k)))) by (intros; rewrite total_scale; reflexivity).
  rewrite total_swap. apply total_ext. intros i Hi. rewrite <- total_scale. apply total_ext. intros k Hk. unfold weighed.
  rewrite (Sy k i Hk Hi). unfold ident. rewrite (Nat.eqb_sym k i). destruct (Nat.eqb_spec i k) as [->|]; ring.
Qed.
Lemma plus_form : forall u, 2 * pairing n (weighed plus) u u = form n w c Ps Po u u.
Proof.
  intro u. unfold pairing, form. rewrite <- total_scale. apply total_ext. intros i Hi. rewrite (weighed_mv plus u i Hi). unfold sc, plus.
  rewrite (total_ext n (fun j => (Ps i j + Po i j) * w j * u j) (fun j => w j * (Ps i j * u j + Po i j * u j))) by (intros; ring). ring.
Qed.
Lemma minus_form : forall u, 2 * pairing n (weighed minus) u u = form n w c Ps Po u (fun k => - u k).
Proof.
  intro u. unfold pairing, form. rewrite <- total_scale. apply total_ext. intros i Hi. rewrite (weighed_mv minus u i Hi). unfold sc, minus.
  rewrite (total_ext n (fun j => (Ps i j - Po i j) * w j * u j) (fun j => w j * (Ps i j * u j + Po i j * - u j))) by (intros; ring).
  rewrite (total_ext n (fun j => w j * (Ps i j * - u j + Po i j * u j)) (fun j => -1 * (w j * (Ps i j * u j + Po i j * - u j)))) by (intros; ring).
  rewrite total_scale. ring.
Qed.
Lemma form_nonzero : forall u v, nonzero n u -> 0 < form n w c Ps Po u v.
Proof.
  intros u v [i [Hi N]]. destruct (Rlt_dec 0 (form n w c Ps Po u v)) as [|L]; [assumption|]. exfalso. apply N.
  apply (form_zero n mu w c Ps Po Scat u v ltac:(lra) i Hi (Wpos i Hi)).
Qed.
Definition em (i : nat) : R := / (mu i * w i).
Lemma em_nz : forall i, (i < n)%nat -> em i <> 0.
Proof. intros i Hi. unfold em. apply Rinv_neq_0_compat. destruct Scat as [P _]. specialize (P i Hi). specialize (Wpos i Hi). nra. Qed.
(** [second_order] is E H E G *)
Lemma second_mv : forall v i, (i < n)%nat -> (second_order n mu w c Ps Po *v v) i = em i * (weighed plus *v (fun k => em k * (weighed minus *v v) k)) i.
Proof.
  intros v i Hi. destruct Scat as [P _]. rewrite weighed_mv by exact Hi. unfold mv at 1, second_order.
  rewrite (total_ext n _ (fun j => total n (fun k => (c * w k * (Ps i k + Po i k) - ident i k) / mu i * ((c * w j * (Ps k j - Po k j) - ident k j) / mu k) * v j)))
    by (intros; rewrite total_scale_r; reflexivity).
  rewrite total_swap.
  rewrite (total_ext n _ (fun k => / mu i * (ident i k - c * w k * (Ps i k + Po i k)) * (em k * (weighed minus *v v) k))).
  - rewrite (total_ext n _ (fun k => / mu i * (ident i k * (em k * (weighed minus *v v) k)) + - (/ mu i * c) * (plus i k * w k * (em k * (weighed minus *v v) k))))
      by (intros; unfold plus; ring).
    rewrite total_plus, !total_scale, ident_row by exact Hi. unfold em at 3. specialize (P i Hi). specialize (Wpos i Hi). field. lra.
  - intros k Hk. rewrite weighed_mv by exact Hk. pose proof (P i Hi). pose proof (P k Hk). pose proof (Wpos k Hk).
    rewrite (total_ext n _ (fun j => (c * w k * (Ps i k + Po i k) - ident i k) / mu i * / mu k * (c * (minus k j * w j * v j) - ident k j * v j))) by (intros; unfold minus; field; lra).
    rewrite total_scale, total_minus, total_scale, (ident_row n k v Hk). unfold em. field. lra.
Qed.
Lemma pair_second : forall u v, pairing n (weighed minus) u (second_order n mu w c Ps Po *v v) =
  pairing n (weighed plus) (fun k => em k * (weighed minus *v u) k) (fun k => em k * (weighed minus *v v) k).
Proof.
  intros u v. destruct Scat as [_ [Sy _]]. rewrite weighed_sym.
  - unfold pairing. apply total_ext. intros i Hi. rewrite second_mv by exact Hi. ring.
  - intros i j Hi Hj. unfold minus. destruct (Sy i j Hi Hj) as [-> ->]. reflexivity.
Qed.
Theorem medium_spectral : exists e, eigensystem n (second_order n mu w c Ps Po) e /\ forall k, (k < n)%nat -> 0 < fst e k.
Proof.
  pose proof Scat as [P [Sy _]].
  assert (forall u v, pairing n (weighed minus) u v = pairing n (weighed minus) v u) as Gs.
  { apply weighed_sym. intros i j Hi Hj. unfold minus. destruct (Sy i j Hi Hj) as [-> ->]. reflexivity. }
  assert (forall u v, pairing n (weighed plus) u v = pairing n (weighed plus) v u) as Hs.
  { apply weighed_sym. intros i j Hi Hj. unfold plus. destruct (Sy i j Hi Hj) as [-> ->]. reflexivity. }
  assert (forall u, nonzero n u -> 0 < pairing n (weighed minus) u u) as Gp.
  { intros u N. pose proof (form_nonzero u (fun k => - u k) N) as F. rewrite <- minus_form in F. lra. }
  apply (spectral n (weighed minus) (second_order n mu w c Ps Po) Gs Gp).
  - intros u v. rewrite Gs, !pair_second. apply Hs.
  - intros u N. rewrite pair_second. assert (nonzero n (fun k => em k * (weighed minus *v u) k)) as N'.
    { destruct (zero_or n (fun k => em k * (weighed minus *v u) k)) as [Y|Z]; [exact Y|]. exfalso. pose proof (Gp u N) as Q.
      assert (pairing n (weighed minus) u u = 0); [|lra]. unfold pairing. apply total_zero. intros i Hi. specialize (Z i Hi). cbv beta in Z.
      apply Rmult_integral in Z. destruct Z as [Z|Z]; [contradiction (em_nz i Hi Z)|]. rewrite Z. ring. }
    pose proof (form_nonzero _ (fun k => em k * (weighed minus *v u) k) N') as F. rewrite <- plus_form in F. lra.
Qed.
End Medium.

(* ------------------------------------------------------------------------- *)
(** * With additional directions of no weight                                 *)

Lemma resonant : forall n mu w c Ps Po k (d : vec), (forall i, (i < n)%nat -> 0 < mu i) -> k <> 0 -> nonresonant n mu w c Ps Po k ->
  veq n (mv n (second_order n mu w c Ps Po) d) (fun i => k * k * d i) -> forall i, (i < n)%nat -> d i = 0.
Proof.
  intros n mu w c Ps Po k d Mp Kn NR E.
  set (s := fun i => / k * total n (fun j => (c * w j * (Ps i j - Po i j) - ident i j) / mu i * d j)).
  assert (forall i, (i < n)%nat -> k * d i = total n (fun j => (c * w j * (Ps i j + Po i j) - ident i j) / mu i * s j)) as A.
  { intros i Hi. apply (Rmult_eq_reg_l k); [|exact Kn]. rewrite <- Rmult_assoc, <- (E i Hi). unfold mv, second_order.
    rewrite (total_ext n _ (fun j => total n (fun q => (c * w q * (Ps i q + Po i q) - ident i q) / mu i * ((c * w j * (Ps q j - Po q j) - ident q j) / mu q) * d j)))
      by (intros; rewrite total_scale_r; reflexivity).
    rewrite total_swap, <- total_scale. apply total_ext. intros q Hq. unfold s.
    rewrite (total_ext n _ (fun j => (c * w q * (Ps i q + Po i q) - ident i q) / mu i * ((c * w j * (Ps q j - Po q j) - ident q j) / mu q * d j))) by (intros; ring).
    rewrite total_scale. specialize (Mp i Hi). field. repeat split; first [exact Kn|lra]. }
  assert (forall i, (i < n)%nat -> k * s i = total n (fun j => (c * w j * (Ps i j - Po i j) - ident i j) / mu i * d j)) as B.
  { intros i Hi. unfold s. field. exact Kn. }
  assert (forall (v : vec) (P : mat) i, (i < n)%nat -> total n (fun j => (c * w j * P i j - ident i j) / mu i * v j) = (c * total n (fun j => w j * (P i j * v j)) - v i) / mu i) as T.
  { intros v P i Hi. specialize (Mp i Hi). rewrite (total_ext n _ (fun j => c / mu i * (w j * (P i j * v j)) + - / mu i * (ident i j * v j))) by (intros; field; lra).
    rewrite total_plus, !total_scale, (ident_row n i v Hi). field. lra. }
  pose proof (NR (fun i => (s i + d i) / 2) (fun i => (s i - d i) / 2)) as Q.
  assert (forall i, (i < n)%nat -> (s i + d i) / 2 = 0 /\ (s i - d i) / 2 = 0) as Z.
  { apply Q. intros depth i t Hi Ht. unfold scattered. specialize (A i Hi). specialize (B i Hi).
    rewrite (T s (fun i j => Ps i j + Po i j) i Hi) in A. rewrite (T d (fun i j => Ps i j - Po i j) i Hi) in B. pose proof (Mp i Hi) as Mi.
    assert (c * total n (fun j => w j * ((Ps i j + Po i j) * s j)) = mu i * (k * d i) + s i) as A'. { rewrite A. field. lra. }
    assert (c * total n (fun j => w j * ((Ps i j - Po i j) * d j)) = mu i * (k * s i) + d i) as B'. { rewrite B. field. lra. }
    assert (forall v : R, derivable_pt_lim (fun t => v * exp (- k * t)) t (- k * v * exp (- k * t))) as D.
    { intros v. eapply dl_eq; [apply dl_scal; apply dl_exp; apply dl_scal; apply dl_id|]. ring. }
    set (y := exp (- k * t)) in *.
    assert (c * total n (fun j => w j * (Ps i j * ((s j + d j) / 2 * y) + Po i j * ((s j - d j) / 2 * y))) =
            y / 2 * (c * total n (fun j => w j * ((Ps i j + Po i j) * s j)) + c * total n (fun j => w j * ((Ps i j - Po i j) * d j)))) as E1.
    { rewrite Rmult_plus_distr_l. repeat rewrite <- total_scale. rewrite <- total_plus. apply total_ext. intros. field. }
    assert (c * total n (fun j => w j * (Ps i j * ((s j - d j) / 2 * y) + Po i j * ((s j + d j) / 2 * y))) =
            y / 2 * (c * total n (fun j => w j * ((Ps i j + Po i j) * s j)) - c * total n (fun j => w j * ((Ps i j - Po i j) * d j)))) as E2.
    { rewrite Rmult_minus_distr_l. repeat rewrite <- total_scale. rewrite <- total_minus. apply total_ext. intros. field. }
    split; (eapply dl_eq; [apply D|]); fold y; rewrite ?E1, ?E2, A', B'; field; lra. }
  intros i Hi. destruct (Z i Hi). lra.
Qed.

Section Directions.
Variables (n m : nat).
Variables (mu w : vec) (c : R) (Ps Po : mat).
Hypothesis Scat : scatters (n + m) mu w c Ps Po.
Hypothesis Wpos : forall i, (i < n)%nat -> 0 < w i.
Hypothesis Wzero : forall i, (n <= i < n + m)%nat -> w i = 0.
Hypothesis NR : forall z, (n <= z < n + m)%nat -> nonresonant n mu w c Ps Po (/ mu z).
Notation N := (n + m)%nat.
Notation SO := (second_order N mu w c Ps Po).
Lemma scat_few : scatters n mu w c Ps Po.
Proof.
  destruct Scat as [P [Sy L]]. refine (conj _ (conj _ _)); [intros; apply P; lia|intros; apply Sy; lia|]. intros i Hi W. specialize (L i ltac:(lia) W).
  rewrite total_split, (total_zero m) in L; [lra|]. intros k Hk. rewrite Wzero by lia. ring.
Qed.
Lemma so_right : forall i z, (i < N)%nat -> (n <= z < N)%nat -> SO i z = ident i z * / (mu z * mu z).
Proof.
  intros i z Hi Hz. destruct Scat as [P _]. unfold second_order. pose proof (P i Hi). pose proof (P z ltac:(lia)).
  rewrite (total_one N z); [|lia|].
  - rewrite (Wzero z Hz). unfold ident. rewrite Nat.eqb_refl. destruct (Nat.eqb_spec i z) as [->|]; field; lra.
  - intros k Hk Ne. rewrite (Wzero z Hz). unfold ident at 2. destruct (Nat.eqb_spec k z); [contradiction|]. pose proof (P k Hk). field. lra.
Qed.
Lemma so_left : forall i j, (i < n)%nat -> (j < n)%nat -> SO i j = second_order n mu w c Ps Po i j.
Proof.
  intros i j Hi Hj. unfold second_order. rewrite total_split, (total_zero m); [ring|]. intros k Hk. rewrite (Wzero (n + k)) by lia.
  unfold ident at 1. destruct (Nat.eqb_spec i (n + k)); [lia|]. unfold Rdiv. ring.
Qed.
Theorem directions_spectral : exists e, eigensystem N SO e /\ forall k, (k < N)%nat -> 0 < fst e k.
Proof.
  destruct (medium_spectral n mu w c Ps Po scat_few Wpos) as [[lam V] [[Inv E] Pos]]. cbn [fst snd] in *. destruct Scat as [P _].
  assert (forall z a, (n <= z < N)%nat -> (a < n)%nat -> lam a - / (mu z * mu z) <> 0) as Away.
  { intros z a Hz Ha Q. pose proof (P z ltac:(lia)).
    assert (forall i, (i < n)%nat -> V i a = 0) as Z.
    { apply (resonant n mu w c Ps Po (/ mu z) (fun i => V i a)); [intros i Hi; apply P; lia|apply Rinv_neq_0_compat; lra|apply NR, Hz|].
      intros i Hi. pose proof (E i a Hi Ha) as X. unfold mv. rewrite X. replace (lam a) with (/ (mu z * mu z)) by lra. rewrite Rinv_mult. ring. }
    pose proof (nonsingular_injective n V Inv (fun k => ident k a)) as J.
    assert (ident a a = 0) as B.
    { apply J; [|exact Ha]. intros i Hi. unfold mv. rewrite (total_ext n _ (fun k => ident k a * V i k)) by (intros; ring). rewrite (total_ident n a (V i) Ha). apply Z, Hi. }
    unfold ident in B. rewrite Nat.eqb_refl in B. lra. }
  set (x := fun z a => total n (fun j => SO z j * V j a) / (lam a - / (mu z * mu z))).
  set (U := fun i k : nat => if Nat.ltb k n then (if Nat.ltb i n then V i k else x i k) else ident i k).
  exists (fun k => if Nat.ltb k n then lam k else / (mu k * mu k), U). split; [split|]; cbn [fst snd].
  - apply injective_nonsingular. intros v Z.
    assert (forall k, (k < n)%nat -> v k = 0) as Z1.
    { apply (nonsingular_injective n V Inv). intros i Hi. rewrite <- (Z i ltac:(lia)). unfold mv. rewrite total_split, (total_zero m).
      - rewrite Rplus_0_r. apply total_ext. intros k Hk. unfold U. destruct (Nat.ltb_spec k n), (Nat.ltb_spec i n); try lia. reflexivity.
      - intros k Hk. unfold U. destruct (Nat.ltb_spec (n + k) n); [lia|]. unfold ident. destruct (Nat.eqb_spec i (n + k)); [lia|ring]. }
    intros i Hi. destruct (Nat.lt_ge_cases i n) as [L|L]; [apply Z1, L|]. rewrite <- (Z i Hi). unfold mv. symmetry. rewrite (total_one N i); [|exact Hi|].
    + unfold U. destruct (Nat.ltb_spec i n); [lia|]. unfold ident. rewrite Nat.eqb_refl. ring.
    + intros k Hk Ne. destruct (Nat.lt_ge_cases k n) as [Lk|Lk]; [rewrite (Z1 k Lk); ring|]. unfold U. destruct (Nat.ltb_spec k n); [lia|].
      unfold ident. destruct (Nat.eqb_spec i k); [congruence|ring].
  - intros i k Hi Hk. destruct (Nat.ltb_spec k n) as [L|L].
    + rewrite total_split.
      rewrite (total_ext n _ (fun j => SO i j * V j k)) by (intros j Hj; unfold U; destruct (Nat.ltb_spec k n), (Nat.ltb_spec j n); try lia; reflexivity).
      rewrite (total_ext m _ (fun j => SO i (n + j)%nat * x (n + j)%nat k))
        by (intros j Hj; unfold U; destruct (Nat.ltb_spec k n), (Nat.ltb_spec (n + j) n); try lia; reflexivity).
      unfold U. destruct (Nat.ltb_spec k n); [|lia]. destruct (Nat.ltb_spec i n) as [Li|Li].
      * rewrite (total_zero m); [|intros j Hj; rewrite so_right by lia; unfold ident; destruct (Nat.eqb_spec i (n + j)); [lia|ring]].
        rewrite Rplus_0_r, <- (E i k Li L). apply total_ext. intros j Hj. rewrite so_left by assumption. reflexivity.
      * rewrite (total_one m (i - n)); [|lia|intros j Hj Ne; rewrite so_right by lia; unfold ident; destruct (Nat.eqb_spec i (n + j)); [lia|ring]].
        replace (n + (i - n))%nat with i by lia. rewrite so_right by lia. unfold ident. rewrite Nat.eqb_refl. unfold x.
        pose proof (Away i k ltac:(lia) L) as AW. set (T := total n (fun j => SO i j * V j k)) in *. set (g := / (mu i * mu i)) in *. field. exact AW.
    + unfold U. destruct (Nat.ltb_spec k n); [lia|]. rewrite (total_ext N _ (fun j => ident j k * SO i j)) by (intros; ring).
      rewrite (total_ident N k (SO i) Hk), so_right by lia. ring.
  - intros k Hk. destruct (Nat.ltb_spec k n) as [L|L]; [apply Pos, L|]. apply Rinv_0_lt_compat. specialize (P k Hk). nra.
Qed.
End Directions.
