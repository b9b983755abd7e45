(** In a medium that scatters less than all of the light the matrices of the eigenvalue solver are nonsingular and the
    eigenvalues are positive. *)
From Coq Require Import Reals Bool Arith Lia Lra Setoid Morphisms.
From Verif Require Import Base DeltaMSpec DeltaMProofs BeamProofs AddingModel AddingSpec AddingMat AddingDeriv RadianceModel RadianceProofs SingleProofs
  EigModel EigSpec EigMat EigCore EigProofs.
Open Scope R_scope.

Lemma const_deriv : forall (f : R -> R) L K s d, 0 < L -> 0 <= s <= L -> (forall s, 0 <= s <= L -> f s = K) -> derivable_pt_lim f s d -> d = 0.
Proof.
  intros f L K s d LP Hs C D. destruct (Req_dec d 0) as [E|E]; [exact E|]. exfalso.
  destruct (D (Rabs d) (Rabs_pos_lt d E)) as (del & H). pose proof (cond_pos del) as DP.
  set (e := Rmin (del / 2) (L / 2)).
  assert (0 < e) as EP. { unfold e. apply Rmin_glb_lt; lra. }
  assert (e <= del / 2) as E1 by apply Rmin_l. assert (e <= L / 2) as E2 by apply Rmin_r.
  destruct (Rle_dec s (L / 2)) as [Q|Q].
  - specialize (H e ltac:(lra)). rewrite (Rabs_right e) in H by lra. specialize (H ltac:(lra)).
    rewrite (C (s + e)), (C s) in H by lra. replace ((K - K) / e - d) with (- d) in H by (field; lra). rewrite Rabs_Ropp in H. lra.
  - specialize (H (- e) ltac:(lra)). rewrite Rabs_Ropp, (Rabs_right e) in H by lra. specialize (H ltac:(lra)).
    rewrite (C (s + - e)), (C s) in H by lra. replace ((K - K) / - e - d) with (- d) in H by (field; lra). rewrite Rabs_Ropp in H. lra.
Qed.
Lemma total_double_swap : forall n (g : nat -> nat -> R), total n (fun i => total n (fun j => g i j)) = total n (fun j => total n (fun i => g i j)).
Proof. intros. apply total_swap. Qed.
Lemma total_pos_zero : forall n f, (forall k, (k < n)%nat -> 0 <= f k) -> total n f <= 0 -> forall k, (k < n)%nat -> f k = 0.
Proof. intros n f P H k Hk. pose proof (total_ge_one n f k P Hk). specialize (P k Hk). lra. Qed.

Section Form.
Variable n : nat.
Variables (mu w : vec) (c : R) (Ps Po : mat).
Hypothesis Scat : scatters n mu w c Ps Po.
Let Wp : forall i, (i < n)%nat -> 0 <= w i. Proof. intros i Hi. apply Scat. exact Hi. Qed.
Definition sc (I J : vec) (i : nat) : R := c * total n (fun j => w j * (Ps i j * I j + Po i j * J j)).
Definition form (I J : vec) : R := total n (fun i => w i * (I i * (I i - sc I J i) + J i * (J i - sc J I i))).
Definition rho (i : nat) : R := Rabs c * total n (fun j => w j * (Rabs (Ps i j) + Rabs (Po i j))).
Lemma young : forall k a b, k * (a * b) <= Rabs k * ((a * a + b * b) / 2).
Proof.
  intros k a b. pose proof (Rle_0_sqr (a - b)) as A. pose proof (Rle_0_sqr (a + b)) as B. unfold Rsqr in A, B.
  destruct (Rle_dec 0 k).
  - rewrite Rabs_right by lra. apply Rmult_le_compat_l; [assumption|lra].
  - rewrite Rabs_left by lra. replace (k * (a * b)) with (- k * (- (a * b))) by ring. apply Rmult_le_compat_l; lra.
Qed.
Lemma form_bound : forall I J, total n (fun i => w i * (1 - rho i) * (I i * I i + J i * J i)) <= form I J.
Proof.
  intros I J. set (E := fun i => I i * I i + J i * J i).
  set (g := fun i j => w i * w j * (Rabs c * (Rabs (Ps i j) + Rabs (Po i j)))).
  assert (forall i j, (i < n)%nat -> (j < n)%nat -> g i j = g j i) as GS.
  { intros i j Hi Hj. unfold g. destruct Scat as (_ & S & _). destruct (S i j Hi Hj) as (-> & ->). ring. }
  assert (form I J = total n (fun i => w i * E i) - total n (fun i => total n (fun j => w i * w j * (c * (Ps i j * (I i * I j + J i * J j) + Po i j * (I i * J j + J i * I j)))))) as F.
  { unfold form. rewrite <- total_minus. apply total_ext. intros i Hi.
    rewrite (total_ext n _ (fun j => (w i * I i * c) * (w j * (Ps i j * I j + Po i j * J j)) + (w i * J i * c) * (w j * (Ps i j * J j + Po i j * I j)))) by (intros; ring).
    rewrite total_plus, !total_scale. unfold E, sc. ring. }
  assert (total n (fun i => total n (fun j => w i * w j * (c * (Ps i j * (I i * I j + J i * J j) + Po i j * (I i * J j + J i * I j))))) <=
          total n (fun i => total n (fun j => g i j * ((E i + E j) / 2)))) as B.
  { apply total_mono. intros i Hi. apply total_mono. intros j Hj. unfold g. rewrite (Rmult_assoc (w i * w j)). apply Rmult_le_compat_l; [apply Rmult_le_pos; [exact (Wp i Hi)|exact (Wp j Hj)]|].
    pose proof (young (c * Ps i j) (I i) (I j)). pose proof (young (c * Ps i j) (J i) (J j)).
    pose proof (young (c * Po i j) (I i) (J j)). pose proof (young (c * Po i j) (J i) (I j)).
    rewrite Rabs_mult in *. unfold E. lra. }
  assert (total n (fun i => total n (fun j => g i j * ((E i + E j) / 2))) = total n (fun i => w i * (rho i * E i))) as S.
  { assert (total n (fun i => total n (fun j => g i j * E j)) = total n (fun i => total n (fun j => g i j * E i))) as SW.
    { rewrite total_double_swap. apply total_ext. intros i Hi. apply total_ext. intros j Hj. rewrite (GS i j Hi Hj). reflexivity. }
    transitivity (/ 2 * (total n (fun i => total n (fun j => g i j * E i)) + total n (fun i => total n (fun j => g i j * E j)))).
    - rewrite <- total_plus, <- total_scale. apply total_ext. intros i Hi. rewrite <- total_plus, <- total_scale. apply total_ext. intros. field.
    - rewrite SW. transitivity (total n (fun i => total n (fun j => g i j * E i))); [field|]. apply total_ext. intros i Hi.
      rewrite (total_ext n _ (fun j => (w i * E i * Rabs c) * (w j * (Rabs (Ps i j) + Rabs (Po i j))))) by (intros; unfold g; ring).
      rewrite total_scale. unfold rho. ring. }
  rewrite F. rewrite (total_ext n _ (fun i => w i * E i - w i * (rho i * E i))) by (intros; unfold E; ring).
  rewrite total_minus. lra.
Qed.
Lemma term_pos : forall I J i, (i < n)%nat -> 0 <= w i * (1 - rho i) * (I i * I i + J i * J i).
Proof.
  intros I J i Hi. pose proof (Rle_0_sqr (I i)) as A. pose proof (Rle_0_sqr (J i)) as B. unfold Rsqr in A, B.
  destruct (Req_dec (w i) 0) as [Z|Z]; [rewrite Z; lra|]. pose proof (Wp i Hi). destruct Scat as (_ & _ & S).
  specialize (S i Hi ltac:(lra)). fold (rho i) in S. apply Rmult_le_pos; [|lra]. apply Rmult_le_pos; lra.
Qed.
Lemma form_pos : forall I J, 0 <= form I J.
Proof. intros I J. eapply Rle_trans; [|apply form_bound]. apply total_nonneg. intros; apply term_pos; assumption. Qed.
Lemma form_zero : forall I J, form I J <= 0 -> forall i, (i < n)%nat -> 0 < w i -> I i = 0 /\ J i = 0.
Proof.
  intros I J H i Hi P. pose proof (form_bound I J) as B.
  pose proof (total_pos_zero n _ (term_pos I J) ltac:(lra) i Hi) as Z. cbv beta in Z.
  destruct Scat as (_ & _ & S). specialize (S i Hi P). fold (rho i) in S.
  pose proof (Rle_0_sqr (I i)) as A. pose proof (Rle_0_sqr (J i)) as C. unfold Rsqr in A, C.
  apply Rmult_integral in Z. destruct Z as [Z|Z].
  - apply Rmult_integral in Z. lra.
  - split; [assert (I i * I i = 0) as Q by lra|assert (J i * J i = 0) as Q by lra]; apply Rmult_integral in Q; lra.
Qed.
End Form.

Section Layer.
Variable n : nat.
Variable solve : nat -> mat -> mat -> mat.
Variable eig : mat -> vec * mat.
Variable x : slab.
Hypothesis Pos : (0 < n)%nat.
Hypothesis Solve1 : solver n (solve n).
Notation "a *v v" := (mv n a v) (at level 40, left associativity).
Notation t := (local_t x).
Notation r := (local_r x).
Notation cc := (factor x 1 * omega x).
Notation tpr := (t_plus_r x).
Notation tmr := (t_minus_r x).
Notation mu := (qx x).
Notation w := (qw x).
Notation sc := (sc n w cc (P_pp x) (P_mp x)).
Notation form := (form n w cc (P_pp x) (P_mp x)).
Hypothesis Scat : scatters n mu w cc (P_pp x) (P_mp x).
Lemma mu_pos : forall i, (i < n)%nat -> 0 < mu i. Proof. intros i Hi. apply Scat. exact Hi. Qed.
Lemma w_pos : forall i, (i < n)%nat -> 0 <= w i. Proof. intros i Hi. apply Scat. exact Hi. Qed.
Lemma mu_nz : forall i, (i < n)%nat -> mu i <> 0. Proof. intros i Hi. pose proof (mu_pos i Hi). lra. Qed.

Lemma sc_split : forall I J i, sc I J i = cc * total n (fun j => w j * (P_pp x i j * I j)) + cc * total n (fun j => w j * (P_mp x i j * J j)).
Proof. intros. unfold EigEnergy.sc. rewrite <- Rmult_plus_distr_l, <- total_plus. f_equal. apply total_ext. intros. ring. Qed.
Lemma tpr_sc : forall v i, (i < n)%nat -> mu i * (tpr *v v) i = - (v i - sc v (fun k => - v k) i).
Proof.
  intros v i Hi. rewrite (tpr_mv n x), (local_t_mv n x mu_nz), (local_r_mv n x mu_nz), sc_split by exact Hi.
  rewrite (total_ext n (fun j => w j * (P_mp x i j * - v j)) (fun j => (- (1)) * (w j * (P_mp x i j * v j)))) by (intros; ring).
  rewrite total_scale. field. exact (mu_nz i Hi).
Qed.
Lemma tmr_sc : forall v i, (i < n)%nat -> mu i * (tmr *v v) i = - (v i - sc v v i).
Proof.
  intros v i Hi. rewrite (tmr_mv n x), (local_t_mv n x mu_nz), (local_r_mv n x mu_nz), sc_split by exact Hi.
  field. exact (mu_nz i Hi).
Qed.
Lemma sc_neg : forall v i, sc (fun k => - v k) v i = - sc v (fun k => - v k) i.
Proof.
  intros. unfold EigEnergy.sc. rewrite Ropp_mult_distr_r. f_equal.
  transitivity (- (1) * total n (fun j => w j * (P_pp x i j * v j + P_mp x i j * - v j))); [|ring]. rewrite <- total_scale. apply total_ext. intros. ring.
Qed.
Lemma form_minus : forall v, form v (fun k => - v k) = - 2 * total n (fun i => w i * mu i * v i * (tpr *v v) i).
Proof.
  intros v. rewrite <- total_scale. unfold EigEnergy.form. apply total_ext. intros i Hi. rewrite sc_neg.
  transitivity (- 2 * w i * v i * (mu i * (tpr *v v) i)); [|ring]. rewrite tpr_sc by exact Hi. ring.
Qed.
Lemma form_plus : forall v, form v v = - 2 * total n (fun i => w i * mu i * v i * (tmr *v v) i).
Proof.
  intros v. rewrite <- total_scale. unfold EigEnergy.form. apply total_ext. intros i Hi.
  transitivity (- 2 * w i * v i * (mu i * (tmr *v v) i)); [|ring]. rewrite tmr_sc by exact Hi. ring.
Qed.
Lemma sc_dark : forall I J i, (forall j, (j < n)%nat -> 0 < w j -> I j = 0 /\ J j = 0) -> sc I J i = 0.
Proof.
  intros I J i H. unfold EigEnergy.sc. rewrite total_zero; [ring|]. intros j Hj.
  destruct (Req_dec (w j) 0) as [Z|Z]; [rewrite Z; ring|]. pose proof (w_pos j Hj). destruct (H j Hj ltac:(lra)) as (-> & ->). ring.
Qed.
(** Eigenvalues are positive *)
Lemma eigenvalue_pos : forall v lam, (exists i, (i < n)%nat /\ v i <> 0) -> (forall i, (i < n)%nat -> (tmr *v (tpr *v v)) i = lam * v i) -> 0 < lam.
Proof.
  intros v lam (i0 & Hi0 & NZ) H. set (u := tpr *v v).
  assert (form u u = lam * form v (fun k => - v k)) as E.
  { rewrite form_plus, form_minus. rewrite <- Rmult_assoc, (Rmult_comm lam), Rmult_assoc. f_equal. rewrite <- total_scale. apply total_ext. intros i Hi.
    change ((tmr *v u) i) with ((tmr *v (tpr *v v)) i). rewrite H by exact Hi. unfold u. ring. }
  destruct (Rlt_dec 0 (form v (fun k => - v k))) as [P|P].
  - pose proof (form_pos n mu w cc (P_pp x) (P_mp x) Scat u u) as FP.
    destruct (Rlt_dec 0 lam) as [|N]; [assumption|exfalso].
    assert (lam * form v (fun k => - v k) <= 0) as Z. { replace 0 with (0 * form v (fun k => - v k)) by ring. apply Rmult_le_compat_r; lra. }
    pose proof (form_zero n mu w cc (P_pp x) (P_mp x) Scat u u ltac:(lra)) as D.
    assert (form v (fun k => - v k) = 0) as F0.
    { rewrite form_minus. rewrite total_zero; [ring|]. intros i Hi. destruct (Req_dec (w i) 0) as [W|W]; [rewrite W; ring|].
      pose proof (w_pos i Hi). destruct (D i Hi ltac:(lra)) as (U & _). unfold u in U. rewrite U. ring. }
    lra.
  - pose proof (form_pos n mu w cc (P_pp x) (P_mp x) Scat v (fun k => - v k)) as FP.
    pose proof (form_zero n mu w cc (P_pp x) (P_mp x) Scat v (fun k => - v k) ltac:(lra)) as D.
    assert (forall i, (i < n)%nat -> mu i * u i = - v i) as U.
    { intros i Hi. unfold u. rewrite tpr_sc by exact Hi. rewrite (sc_dark v (fun k => - v k) i D). ring. }
    assert (forall i, (i < n)%nat -> 0 < w i -> u i = 0 /\ u i = 0) as DU.
    { intros i Hi Wi. pose proof (U i Hi) as Q. destruct (D i Hi Wi) as (V0 & _). rewrite V0 in Q.
      assert (u i = 0); [|tauto]. apply (Rmult_eq_reg_l (mu i)); [lra|exact (mu_nz i Hi)]. }
    pose proof (tmr_sc u i0 Hi0) as Q. rewrite (sc_dark u u i0 DU) in Q. unfold u at 1 in Q. rewrite H in Q by exact Hi0.
    pose proof (U i0 Hi0) as U0. pose proof (mu_pos i0 Hi0) as M.
    assert (lam * (mu i0 * mu i0) = 1) as One.
    { apply (Rmult_eq_reg_r (v i0)); [|exact NZ]. transitivity (mu i0 * (mu i0 * (lam * v i0))); [ring|]. rewrite Q.
      replace (mu i0 * - (u i0 - 0)) with (- (mu i0 * u i0)) by ring. rewrite U0. ring. }
    assert (0 < mu i0 * mu i0) as MM by (apply Rmult_lt_0_compat; exact M).
    apply (Rmult_lt_reg_r (mu i0 * mu i0)); [exact MM|]. lra.
Qed.

(** The energy of a solution of the homogeneous equations *)
Definition energy (Ip Im : beam) (s : R) : R := total n (fun i => w i * mu i * (Ip i s * Ip i s - Im i s * Im i s)).
Lemma energy_deriv : forall Ip Im L s, sys n t r (fun _ _ => 0) (fun _ _ => 0) L Ip Im -> 0 <= s <= L ->
  derivable_pt_lim (energy Ip Im) s (2 * form (fun k => Ip k s) (fun k => Im k s)).
Proof.
  intros Ip Im L s H Hs. unfold energy. eapply dl_eq.
  - apply (dl_total n (fun i s => w i * mu i * (Ip i s * Ip i s - Im i s * Im i s))). intros i Hi. destruct (H i s Hi Hs) as (A & B).
    apply dl_scal. apply dl_minus; apply dl_mult; eassumption.
  - unfold EigEnergy.form. rewrite <- total_scale. apply total_ext. intros i Hi.
    rewrite !(local_t_mv n x mu_nz), !(local_r_mv n x mu_nz), !sc_split by exact Hi. field. exact (mu_nz i Hi).
Qed.
Lemma energy_grows : forall Ip Im L a b, sys n t r (fun _ _ => 0) (fun _ _ => 0) L Ip Im -> 0 <= a <= b -> b <= L -> energy Ip Im a <= energy Ip Im b.
Proof.
  intros Ip Im L a b H Hab HL. destruct (Req_dec a b) as [->|N]; [lra|].
  destruct (MVT_cor2 (energy Ip Im) (fun s => 2 * form (fun k => Ip k s) (fun k => Im k s)) a b ltac:(lra)) as (s & E & Hs).
  - intros s Hs. apply (energy_deriv Ip Im L); [exact H|lra].
  - pose proof (form_pos n mu w cc (P_pp x) (P_mp x) Scat (fun k => Ip k s) (fun k => Im k s)) as F.
    assert (0 <= 2 * form (fun k => Ip k s) (fun k => Im k s) * (b - a)); [|lra]. apply Rmult_le_pos; lra.
Qed.
Lemma dark_from_energy : forall Ip Im L, 0 < L -> sys n t r (fun _ _ => 0) (fun _ _ => 0) L Ip Im -> (forall s, 0 <= s <= L -> energy Ip Im s = 0) ->
  forall s, 0 <= s <= L -> forall i, (i < n)%nat -> 0 < w i -> Ip i s = 0 /\ Im i s = 0.
Proof.
  intros Ip Im L LP H E s Hs. pose proof (const_deriv (energy Ip Im) L 0 s _ LP Hs E (energy_deriv Ip Im L s H Hs)) as Z.
  apply (form_zero n mu w cc (P_pp x) (P_mp x) Scat (fun k => Ip k s) (fun k => Im k s)). lra.
Qed.
(** Away from the scattering streams the light only fades *)
Lemma fading : forall Ip Im L, sys n t r (fun _ _ => 0) (fun _ _ => 0) L Ip Im ->
  (forall s, 0 <= s <= L -> forall i, (i < n)%nat -> 0 < w i -> Ip i s = 0 /\ Im i s = 0) ->
  forall i s, (i < n)%nat -> 0 <= s <= L -> derivable_pt_lim (Ip i) s (/ mu i * Ip i s + 0) /\ derivable_pt_lim (Im i) s (- / mu i * Im i s + 0).
Proof.
  intros Ip Im L H D i s Hi Hs. destruct (H i s Hi Hs) as (A & B).
  pose proof (sc_dark (fun k => Ip k s) (fun k => Im k s) i (D s Hs)) as S1.
  pose proof (sc_dark (fun k => Im k s) (fun k => Ip k s) i (fun j Hj Wj => conj (proj2 (D s Hs j Hj Wj)) (proj1 (D s Hs j Hj Wj)))) as S2.
  rewrite sc_split in S1, S2. pose proof (mu_nz i Hi) as M. split.
  - eapply dl_eq; [exact A|]. rewrite (local_t_mv n x mu_nz), (local_r_mv n x mu_nz) by exact Hi.
    transitivity ((Ip i s - (cc * total n (fun j => w j * (P_pp x i j * Ip j s)) + cc * total n (fun j => w j * (P_mp x i j * Im j s)))) / mu i); [field; exact M|].
    rewrite S1. field. exact M.
  - eapply dl_eq; [exact B|]. rewrite (local_t_mv n x mu_nz), (local_r_mv n x mu_nz) by exact Hi.
    transitivity ((cc * total n (fun j => w j * (P_pp x i j * Im j s)) + cc * total n (fun j => w j * (P_mp x i j * Ip j s)) - Im i s) / mu i); [field; exact M|].
    rewrite S2. field. exact M.
Qed.
Lemma zero_solves : forall (k : R) s, derivable_pt_lim (fun _ => 0) s (k * 0 + 0).
Proof. intros. eapply dl_eq; [apply dl_const|ring]. Qed.
(** Without incident light there is no light *)
Lemma dark : forall Ip Im L, 0 <= L -> sys n t r (fun _ _ => 0) (fun _ _ => 0) L Ip Im ->
  (forall i, (i < n)%nat -> Im i 0 = 0 /\ Ip i L = 0) -> forall s i, 0 <= s <= L -> (i < n)%nat -> Ip i s = 0 /\ Im i s = 0.
Proof.
  intros Ip Im L LP H B s i Hs Hi. destruct (Req_dec L 0) as [Z|Z].
  - assert (s = 0) as -> by lra. destruct (B i Hi) as (B1 & B2). rewrite Z in B2. tauto.
  - assert (0 < L) as LP' by lra.
    assert (0 <= energy Ip Im 0) as E0.
    { apply total_nonneg. intros k Hk. destruct (B k Hk) as (B1 & _). rewrite B1. pose proof (w_pos k Hk). pose proof (mu_pos k Hk).
      pose proof (Rle_0_sqr (Ip k 0)) as A. unfold Rsqr in A. apply Rmult_le_pos; [apply Rmult_le_pos; lra|lra]. }
    assert (energy Ip Im L <= 0) as EL.
    { replace 0 with (- 0) by ring. rewrite <- (Ropp_involutive (energy Ip Im L)). apply Ropp_le_contravar. unfold energy.
      apply Rle_trans with (total n (fun i => w i * mu i * (Im i L * Im i L))).
      - apply total_nonneg. intros k Hk. pose proof (w_pos k Hk). pose proof (mu_pos k Hk). pose proof (Rle_0_sqr (Im k L)) as A. unfold Rsqr in A.
        apply Rmult_le_pos; [apply Rmult_le_pos; lra|lra].
      - right. transitivity (- (1) * total n (fun i => w i * mu i * (Ip i L * Ip i L - Im i L * Im i L))); [|ring]. rewrite <- total_scale.
        apply total_ext. intros k Hk. destruct (B k Hk) as (_ & B2). rewrite B2. ring. }
    assert (forall s, 0 <= s <= L -> energy Ip Im s = 0) as E.
    { intros q Hq. pose proof (energy_grows Ip Im L 0 q H ltac:(lra) ltac:(lra)). pose proof (energy_grows Ip Im L q L H ltac:(lra) ltac:(lra)). lra. }
    pose proof (fading Ip Im L H (dark_from_energy Ip Im L LP' H E)) as F. destruct (B i Hi) as (B1 & B2). split.
    + apply (same_solution (/ mu i) (Ip i) (fun _ => 0) (fun _ => 0) s L ltac:(lra)).
      * intros q Hq. apply F; [exact Hi|lra].
      * intros q Hq. apply zero_solves.
      * exact B2.
    + apply (same_solution (- / mu i) (Im i) (fun _ => 0) (fun _ => 0) 0 s ltac:(lra)).
      * intros q Hq. apply F; [exact Hi|lra].
      * intros q Hq. apply zero_solves.
      * exact B1.
Qed.

(** The matrices of the solver *)
Hypothesis Eig : eigensystem n (gam n x) (eig (gam n x)).
Notation V := (evecs n eig x).
Notation nu := (nu n eig x).
Notation X_p := (X_p n eig x).
Notation X_m := (X_m n eig x).
Notation L := (ltau x).
Lemma evals_pos : forall k, (k < n)%nat -> 0 < evals n eig x k.
Proof.
  intros k Hk. apply (eigenvalue_pos (fun i => V i k)).
  - destruct (all_zero_or n (fun i => V i k)) as [Z|(i & Hi & E)]; [exfalso|exists i; split; assumption].
    pose proof (nonsingular_injective n V (proj1 Eig) (fun j => ident j k)) as Q.
    assert (ident k k = 0) as C; [|unfold ident in C; rewrite Nat.eqb_refl in C; lra].
    refine (Q _ k Hk). intros i Hi. transitivity (V i k); [exact (mmul_1_r n V i k Hi Hk)|apply Z; exact Hi].
  - intros i Hi. rewrite mv_mul. exact (proj2 Eig i k Hi Hk).
Qed.
Notation Nu := (nu_ev n eig x evals_pos).
Lemma Xp_mv : forall u i, (X_p *v u) i = / 2 * ((V *v u) i + (w1n n eig x *v u) i).
Proof. intros. unfold EigModel.X_p. rewrite mv_scaled, mv_madd. reflexivity. Qed.
Lemma Xm_mv : forall u i, (X_m *v u) i = / 2 * ((V *v u) i - (w1n n eig x *v u) i).
Proof. intros. unfold EigModel.X_m. rewrite mv_scaled, mv_less. reflexivity. Qed.
Lemma V_inj : injective n V. Proof. apply nonsingular_injective. exact (proj1 Eig). Qed.
Lemma W_inj : injective n (w1n n eig x).
Proof.
  intros u H.
  assert (forall k, (k < n)%nat -> u k / nu k = 0) as Z.
  { apply V_inj. apply (nonsingular_injective n tpr (proj2 (txr_nonsingular n eig x Eig evals_pos))). intros i Hi.
    rewrite <- (H i Hi). rewrite mv_mul. unfold w1n, mul_dinv, mv. apply total_ext. intros k Hk. destruct (Nu k Hk). field. lra. }
  intros k Hk. destruct (Nu k Hk). specialize (Z k Hk). apply (Rmult_eq_reg_r (/ nu k)); [rewrite Rmult_0_l; exact Z|]. apply Rinv_neq_0_compat. lra.
Qed.
(** The light of a half-space *)
Definition half_p (al : vec) : beam := fun i s => (X_p *v (fun k => exp (- nu k * s) * al k)) i.
Definition half_m (al : vec) : beam := fun i s => - (X_m *v (fun k => exp (- nu k * s) * al k)) i.
Lemma half_solves : forall al M, sys n t r (fun _ _ => 0) (fun _ _ => 0) M (half_p al) (half_m al).
Proof.
  intros al M i s Hi Hs. 
  pose proof (modes_solve n t r V (evals n eig x) nu (eig_ev n eig x Eig) Nu M al (fun _ => 0) i s Hi Hs) as (A & B).
  assert (forall k s, mode_p n t r V nu M al (fun _ => 0) k s = half_p al k s) as EP.
  { intros k q. unfold mode_p. rewrite (mv_zero n _ (fun k => exp (- nu k * (M - q)) * 0)) by (intros; ring). rewrite Rplus_0_r. reflexivity. }
  assert (forall k s, mode_m n t r V nu M al (fun _ => 0) k s = half_m al k s) as EM.
  { intros k q. unfold mode_m. rewrite (mv_zero n _ (fun k => exp (- nu k * (M - q)) * 0)) by (intros; ring). rewrite Rminus_0_r. reflexivity. }
  rewrite !(mv_ext n _ _ _ i (fun k Hk => EP k s)), !(mv_ext n _ _ _ i (fun k Hk => EM k s)) in A.
  rewrite !(mv_ext n _ _ _ i (fun k Hk => EP k s)), !(mv_ext n _ _ _ i (fun k Hk => EM k s)) in B.
  split.
  - intros e He. destruct (A e He) as (del & D). exists del. intros h H1 H2. rewrite <- !EP. apply D; assumption.
  - intros e He. destruct (B e He) as (del & D). exists del. intros h H1 H2. rewrite <- !EM. apply D; assumption.
Qed.
Definition cap (al : vec) (i : nat) : R := total n (fun k => Rabs (X_p i k * al k) / nu k).
Lemma half_bound : forall al i s, 0 < s -> Rabs (half_p al i s) <= cap al i / s.
Proof.
  intros al i s Hs. unfold half_p, mv. eapply Rle_trans; [apply total_abs|]. unfold cap, Rdiv. rewrite Rmult_comm, <- total_scale.
  apply total_mono. intros k Hk. destruct (Nu k Hk) as (P & _).
  replace (X_p i k * (exp (- nu k * s) * al k)) with (X_p i k * al k * exp (- nu k * s)) by ring. rewrite Rabs_mult.
  rewrite (Rabs_right (exp (- nu k * s))) by (left; apply exp_pos).
  replace (/ s * (Rabs (X_p i k * al k) * / nu k)) with (Rabs (X_p i k * al k) * / (nu k * s)) by (field; lra).
  apply Rmult_le_compat_l; [apply Rabs_pos|].
  assert (0 < nu k * s) as Q by (apply Rmult_lt_0_compat; lra).
  pose proof (exp_ineq1 (nu k * s) ltac:(lra)) as I. replace (- nu k * s) with (- (nu k * s)) by ring. rewrite exp_Ropp.
  apply Rinv_le_contravar; lra.
Qed.
Lemma small : forall a C, (forall s, 0 < s -> a <= C / s) -> a <= 0.
Proof.
  intros a C H. destruct (Rle_dec a 0) as [|N]; [assumption|exfalso]. assert (0 < a) as P by lra.
  assert (0 < Rabs C + 1) as Q by (pose proof (Rabs_pos C); lra).
  assert (0 < 2 * (Rabs C + 1) / a) as S. { apply Rdiv_lt_0_compat; lra. }
  specialize (H _ S). replace (C / (2 * (Rabs C + 1) / a)) with (C / (Rabs C + 1) * (a / 2)) in H by (field; lra).
  assert (C / (Rabs C + 1) <= 1). { apply (Rmult_le_reg_r (Rabs C + 1)); [lra|]. unfold Rdiv. rewrite Rmult_assoc, Rinv_l by lra. pose proof (Rle_abs C). lra. }
  assert (C / (Rabs C + 1) * (a / 2) <= 1 * (a / 2)) by (apply Rmult_le_compat_r; lra). lra.
Qed.
Lemma X_m_nonsingular : nonsingular n X_m.
Proof.
  apply injective_nonsingular. intros al H.
  assert (forall i, (i < n)%nat -> half_m al i 0 = 0) as M0.
  { intros i Hi. unfold half_m. rewrite (mv_ext n X_m _ al); [rewrite H by exact Hi; ring|]. intros. rewrite Rmult_0_r, exp_0. ring. }
  set (e := energy (half_p al) (half_m al)).
  assert (0 <= e 0) as E0.
  { apply total_nonneg. intros k Hk. rewrite (M0 k Hk). pose proof (w_pos k Hk). pose proof (mu_pos k Hk).
    pose proof (Rle_0_sqr (half_p al k 0)) as A. unfold Rsqr in A. apply Rmult_le_pos; [apply Rmult_le_pos; lra|lra]. }
  assert (forall a b, 0 <= a <= b -> e a <= e b) as G.
  { intros a b Hab. apply (energy_grows _ _ b); [apply half_solves|exact Hab|lra]. }
  assert (forall s, 0 < s -> s * (s * e s) <= total n (fun i => w i * mu i * (cap al i * cap al i))) as U.
  { intros s Hs. unfold e, energy. rewrite <- !total_scale. apply total_mono. intros i Hi.
    pose proof (w_pos i Hi) as Wi. pose proof (mu_pos i Hi) as Mi. pose proof (half_bound al i s Hs) as B.
    assert (Rabs (s * half_p al i s) <= cap al i) as B'.
    { rewrite Rabs_mult, (Rabs_right s) by lra. apply (Rmult_le_compat_l s) in B; [|lra]. replace (s * (cap al i / s)) with (cap al i) in B by (field; lra). exact B. }
    pose proof (Rle_0_sqr (half_m al i s)) as A. unfold Rsqr in A.
    assert ((s * half_p al i s) * (s * half_p al i s) <= cap al i * cap al i) as SQ.
    { rewrite <- (Rabs_right ((s * half_p al i s) * (s * half_p al i s))) by (apply Rle_ge; apply Rle_0_sqr). rewrite Rabs_mult.
      apply Rmult_le_compat; try assumption; apply Rabs_pos. }
    apply Rle_trans with (w i * mu i * ((s * half_p al i s) * (s * half_p al i s) - s * s * (half_m al i s * half_m al i s))); [right; ring|].
    apply Rmult_le_compat_l; [apply Rmult_le_pos; lra|].
    assert (0 <= s * s * (half_m al i s * half_m al i s)) by (apply Rmult_le_pos; [apply Rmult_le_pos; lra|exact A]). lra. }
  assert (forall q, 0 <= q -> e q <= 0) as LE.
  { intros q Hq. set (C := total n (fun i => w i * mu i * (cap al i * cap al i))) in U.
    apply (small _ (C + Rabs (e q) * (q + 1))). intros s Hs.
    destruct (Rle_dec s (q + 1)) as [S1|S1].
    - apply (Rmult_le_reg_r s); [exact Hs|]. unfold Rdiv. rewrite Rmult_assoc, Rinv_l, Rmult_1_r by lra.
      assert (0 <= C). { apply total_nonneg. intros k Hk. pose proof (w_pos k Hk). pose proof (mu_pos k Hk). pose proof (Rle_0_sqr (cap al k)) as A. unfold Rsqr in A. apply Rmult_le_pos; [apply Rmult_le_pos; lra|exact A]. }
      assert (e q * s <= Rabs (e q) * (q + 1)); [|lra].
      apply Rle_trans with (Rabs (e q) * s); [apply Rmult_le_compat_r; [lra|apply Rle_abs]|apply Rmult_le_compat_l; [apply Rabs_pos|exact S1]].
    - pose proof (G q s ltac:(lra)) as Gq. pose proof (U s Hs) as Us.
      apply (Rmult_le_reg_r s); [exact Hs|]. unfold Rdiv. rewrite Rmult_assoc, Rinv_l, Rmult_1_r by lra.
      assert (0 <= Rabs (e q) * (q + 1)) by (apply Rmult_le_pos; [apply Rabs_pos|lra]).
      assert (0 <= e s) by (pose proof (G 0 s ltac:(lra)); lra).
      assert (s * e s <= s * (s * e s)). { rewrite <- (Rmult_1_l (s * e s)) at 1. apply Rmult_le_compat_r; [apply Rmult_le_pos; lra|lra]. }
      assert (e q * s <= e s * s) by (apply Rmult_le_compat_r; lra). lra. }
  assert (forall M s, 0 <= s <= M -> energy (half_p al) (half_m al) s = 0) as EZ.
  { intros M s Hs. pose proof (G 0 s ltac:(lra)) as A. pose proof (LE s ltac:(lra)). fold e. lra. }
  assert (forall i, (i < n)%nat -> half_p al i 0 = 0) as P0.
  { intros i Hi. assert (Rabs (half_p al i 0) <= 0) as Q; [|pose proof (Rabs_pos (half_p al i 0)); destruct (Req_dec (half_p al i 0) 0) as [|NE]; [assumption|]; pose proof (Rabs_pos_lt _ NE); lra].
    apply (small _ (cap al i)). intros s Hs. eapply Rle_trans; [|exact (half_bound al i s Hs)].
    pose proof (fading (half_p al) (half_m al) s (half_solves al s) (dark_from_energy _ _ s Hs (half_solves al s) (EZ s))) as F.
    assert (half_p al i s = half_p al i 0 * exp (/ mu i * s)) as E.
    { apply (same_solution (/ mu i) (half_p al i) (fun s => half_p al i 0 * exp (/ mu i * s)) (fun _ => 0) 0 s ltac:(lra)).
      - intros q Hq. apply F; [exact Hi|lra].
      - intros q Hq. eapply dl_eq; [apply dl_scal; apply dl_exp; apply dl_scal; apply dl_id|]. ring.
      - rewrite Rmult_0_r, exp_0. ring. }
    rewrite E, Rabs_mult. rewrite <- (Rmult_1_r (Rabs (half_p al i 0))) at 1. apply Rmult_le_compat_l; [apply Rabs_pos|].
    rewrite Rabs_right by (left; apply exp_pos). pose proof (mu_pos i Hi) as Mi. pose proof (Rinv_0_lt_compat _ Mi) as MI.
    assert (0 < / mu i * s) as Z by (apply Rmult_lt_0_compat; lra). pose proof (exp_ineq1 _ (Rgt_not_eq _ _ Z)). lra. }
  apply V_inj. intros i Hi. specialize (P0 i Hi). specialize (H i Hi). unfold half_p in P0.
  rewrite (mv_ext n X_p _ al) in P0 by (intros; rewrite Rmult_0_r, exp_0; ring).
  rewrite Xp_mv in P0. rewrite Xm_mv in H. lra.
Qed.
Lemma gc_nonsingular : 0 <= L -> nonsingular n (gc n solve eig x).
Proof.
  intros LP. apply injective_nonsingular. intros al H.
  destruct (onto n X_m (nonsingular_injective n X_m X_m_nonsingular) (fun i => - (ga n eig x *v al) i)) as (be & Be).
  assert (forall i, (i < n)%nat -> hom_m n eig x al be i 0 = 0 /\ hom_p n eig x al be i L = 0) as B.
  { intros i Hi. rewrite hom_m0, hom_pL. rewrite Be by exact Hi. split; [|ring].
    rewrite <- (b_Xm n solve eig x Solve1 X_m_nonsingular be i Hi). rewrite (mv_ext n (gb n solve eig x) (X_m *v be) (fun i => - (ga n eig x *v al) i) i Be).
    rewrite mv_opp. pose proof (H i Hi) as E. rewrite c_mv in E. lra. }
  pose proof (dark (hom_p n eig x al be) (hom_m n eig x al be) L LP (hom_solves n eig x Eig evals_pos al be) B) as D.
  set (lb := fun k => exp (- nu k * L) * be k).
  assert (forall i, (i < n)%nat -> (X_p *v al) i + (X_m *v lb) i = 0 /\ - (X_m *v al) i - (X_p *v lb) i = 0) as E.
  { intros i Hi. destruct (D 0 i ltac:(lra) Hi) as (D1 & D2). rewrite hom_p0 in D1. rewrite hom_m0, a_mv in D2. split; assumption. }
  assert (forall k, (k < n)%nat -> al k + lb k = 0) as S1.
  { apply V_inj. intros i Hi. rewrite mv_plus. destruct (E i Hi) as (E1 & E2). rewrite Xp_mv, Xm_mv in E1, E2. lra. }
  assert (forall k, (k < n)%nat -> al k - lb k = 0) as S2.
  { apply W_inj. intros i Hi. rewrite mv_minus. destruct (E i Hi) as (E1 & E2). rewrite Xp_mv, Xm_mv in E1, E2. lra. }
  intros k Hk. specialize (S1 k Hk). specialize (S2 k Hk). lra.
Qed.
(** The beam *)
Lemma beam_f_nonsingular : as_0 x <> 0 -> nonresonant n mu w cc (P_pp x) (P_mp x) (as_0 x) -> nonsingular n (beam_f n x).
Proof.
  intros K NR. apply injective_nonsingular. intros p H.
  set (h := fun i => (tpr *v p) i / as_0 x). set (a := fun i => / 2 * (h i + p i)). set (b := fun i => / 2 * (h i - p i)).
  assert (forall i, (i < n)%nat -> (tmr *v h) i = as_0 x * p i) as E1.
  { intros i Hi. pose proof (H i Hi) as E. rewrite (beam_f_mv n x) in E by exact Hi.
    unfold h. rewrite (mv_ext n tmr _ (fun k => / as_0 x * (tpr *v p) k)) by (intros; unfold Rdiv; ring). rewrite mv_scal.
    apply (Rmult_eq_reg_l (as_0 x)); [|exact K].
    replace (as_0 x * (/ as_0 x * (tmr *v (tpr *v p)) i)) with ((tmr *v (tpr *v p)) i) by (field; exact K). lra. }
  assert (forall i, (i < n)%nat -> a i = 0 /\ b i = 0) as Z.
  { apply NR. intros depth. 
    assert (forall i, (i < n)%nat -> - as_0 x * a i = - (t *v a) i + (r *v b) i /\ - as_0 x * b i = (t *v b) i - (r *v a) i) as Q.
    { intros i Hi. unfold a, b. rewrite !mv_scal, !mv_plus, !mv_minus. pose proof (E1 i Hi) as A. rewrite (tmr_mv n x) in A.
      assert (as_0 x * h i = (t *v p) i + (r *v p) i) as B. { rewrite <- (tpr_mv n x). unfold h. field. exact K. } split; lra. }
    intros i s Hi Hs. pose proof (Q i Hi) as (Q1 & Q2). pose proof (mu_nz i Hi) as M.
    rewrite (local_t_mv n x mu_nz), (local_r_mv n x mu_nz) in Q1, Q2 by exact Hi.
    assert (forall I J, scattered n w cc (P_pp x) (P_mp x) (fun i s => I i * exp (- as_0 x * s)) (fun i s => J i * exp (- as_0 x * s)) i s =
       exp (- as_0 x * s) * (cc * total n (fun j => w j * (P_pp x i j * I j)) + cc * total n (fun j => w j * (P_mp x i j * J j)))) as SE.
    { intros. unfold scattered. rewrite <- Rmult_plus_distr_l, <- total_plus.
      transitivity (cc * (exp (- as_0 x * s) * total n (fun j => w j * (P_pp x i j * I j) + w j * (P_mp x i j * J j)))); [|ring]. apply f_equal.
      rewrite <- total_scale. apply total_ext. intros. ring. }
    rewrite !SE. split; (eapply dl_eq; [apply dl_scal; apply dl_exp; apply dl_scal; apply dl_id|]).
    - transitivity (- as_0 x * a i * exp (- as_0 x * s)); [ring|]. rewrite Q1. field. exact M.
    - transitivity (- as_0 x * b i * exp (- as_0 x * s)); [ring|]. rewrite Q2. field. exact M. }
  intros i Hi. destruct (Z i Hi) as (A & B). unfold a, b in A, B. lra.
Qed.
End Layer.
