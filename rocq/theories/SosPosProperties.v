(** C60: the radiances by successive orders are not negative, grow with the number of orders, stay below the whole light, and go with the unit of light. *)
From Coq Require Import Reals Bool Arith List ZArith Lia Lra.
From Verif Require Import Base DeltaMSpec DeltaMProofs AddingModel AddingDeriv TwoModel SosSpec SosModel SosProofs SosProperties.
Import ListNotations.
Open Scope R_scope.

(** Nothing that the solver is given is negative, and the cosines are above zero. *)
Definition positive (n m : nat) (md : medium) : Prop :=
  0 <= s_F0 md /\ (forall q, (q < n)%nat -> 0 < s_qx md q /\ 0 <= s_qw md q /\ 0 <= s_top md q /\ 0 <= s_bot md q) /\
  (forall k, (k < m)%nat -> 0 <= s_omega md k /\ 0 <= s_ltau md k) /\ (forall k, (k <= m)%nat -> 0 <= s_btran md k) /\
  (forall k q, (k < m)%nat -> (q < n)%nat -> 0 <= s_P0p md k q /\ 0 <= s_P0m md k q) /\
  (forall k q i, (k < m)%nat -> (q < n)%nat -> (i < n)%nat -> 0 <= s_Ppp md k q i /\ 0 <= s_Ppm md k q i /\ 0 <= s_Pmp md k q i /\ 0 <= s_Pmm md k q i) /\
  (forall r q i, s_Rs md = Some r -> (q < n)%nat -> (i < n)%nat -> 0 <= r q i).
Definition not_negative (n N : nat) (x : field) : Prop := forall j q, (j <= N)%nat -> (q < n)%nat -> 0 <= up x j q /\ 0 <= down x j q.

Section Positive.
Variables (md : medium) (n m : nat) (g : cut) (N : nat) (mt : R).
Hypothesis P : positive n m md.
Hypothesis Ct : cuts mt md m g N.
Lemma sun_pos : forall j, (j <= N)%nat -> 0 <= c_sun g j.
Proof using P Ct.
  intros j Hj. destruct P as (_ & _ & _ & Pb & _). destruct Ct as (a & A0 & A1 & A2 & A3). subst N.
  destruct (Nat.eq_dec j (a m)) as [->|ne]; [rewrite A2; apply Pb; lia|].
  assert (forall k, (k <= m)%nat -> (j < a k)%nat -> 0 <= c_sun g j) as X; [|apply (X m); lia].
  induction k as [|k IH]; intros Hk Hj'; [lia|]. destruct (A3 k ltac:(lia)) as (c & _ & C1 & _ & _ & C4).
  destruct (Nat.lt_ge_cases j (a k)) as [L|L]; [apply IH; [lia|exact L]|]. destruct (C4 (j - a k)%nat ltac:(lia)) as (_ & _ & D). replace (a k + (j - a k))%nat with j in D by lia. rewrite D.
  apply Rmult_le_pos; [apply Pb; lia|left; apply exp_pos].
Qed.
Lemma tau_pos : forall j, (j < N)%nat -> 0 <= c_tau g j.
Proof using P Ct.
  intros j Hj. destruct P as (_ & _ & Pk & _). destruct (cuts_layer _ _ _ _ _ Ct j Hj) as (L & c & C0 & -> & _). apply Rmult_le_pos; [apply Pk, L|]. left. apply Rinv_0_lt_compat. apply (lt_INR 0), C0.
Qed.
Lemma mix_pos : forall c u v w, 0 <= c <= 1 -> 0 <= u -> 0 <= v -> 0 <= w -> 0 <= c * u + (1 - c) * ((v + w) / 2).
Proof using. clear. intros. apply Rplus_le_le_0_compat; apply Rmult_le_pos; lra. Qed.
(** Light that is not negative brings forth light that is not. *)
Lemma lit_pos : forall s x top bottom y, 0 <= s -> lit md n g N s x top bottom y -> not_negative n N x -> (forall q, (q < n)%nat -> 0 <= top q /\ 0 <= bottom q) -> not_negative n N y.
Proof using P Ct.
  intros s x top bottom y Hs [L0 L1] X TB.
  pose proof P as (PF & Pq & Pk & _ & P0 & PP & _).
  assert (forall j q, (j < N)%nat -> (q < n)%nat -> 0 <= clear md g j q <= 1) as Cl. { intros j q Hj Hq. eapply clear_01; [|apply tau_pos| |]; [intros r Hr; apply Pq, Hr|exact Hj|exact Hq]. }
  assert (forall j i q, (j < N)%nat -> (i <= N)%nat -> (q < n)%nat -> 0 <= source_up md n g s x (c_layer g j) i q /\ 0 <= source_down md n g s x (c_layer g j) i q) as Src.
  { intros j i q Hj Hi Hq. pose proof (proj1 (cuts_layer _ _ _ _ _ Ct j Hj)) as Lr. destruct (Pk _ Lr) as [Om _]. destruct (P0 _ q Lr Hq) as [B1 B2].
    assert (0 <= s_F0 md / (4 * PI)) as F by (apply Rmult_le_pos; [exact PF|left; apply Rinv_0_lt_compat; pose proof PI_RGT_0; lra]).
    pose proof (sun_pos i Hi) as Sn. pose proof (fraction_pos md) as Fr. unfold source_up, source_down. split; (apply Rmult_le_pos; [exact Om|]); apply Rplus_le_le_0_compat.
    1, 3: apply Rmult_le_pos; [apply Rmult_le_pos; [apply Rmult_le_pos; [exact Hs|exact F]|exact Sn]|assumption].
    all: apply Rmult_le_pos; [exact Fr|]; apply total_nonneg; intros r Hr; destruct (Pq r Hr) as (_ & W & _); destruct (PP _ q r Lr Hq Hr) as (E1 & E2 & E3 & E4); destruct (X i r Hi Hr) as [X1 X2];
      apply Rmult_le_pos; [exact W|]; apply Rplus_le_le_0_compat; apply Rmult_le_pos; assumption. }
  assert (forall c q, (c <= N)%nat -> (q < n)%nat -> 0 <= up y (N - c) q) as U.
  { induction c as [|c IH]; intros q Hc Hq. { rewrite Nat.sub_0_r, (proj2 (L0 q Hq)). apply TB, Hq. }
    rewrite (proj1 (L1 (N - S c)%nat q ltac:(lia) Hq)). replace (S (N - S c)) with (N - c)%nat by lia. apply mix_pos; [apply Cl; [lia|exact Hq]|apply IH; [lia|exact Hq]|apply Src; lia|apply Src; lia]. }
  assert (forall j q, (j <= N)%nat -> (q < n)%nat -> 0 <= down y j q) as D.
  { induction j as [|j IH]; intros q Hj Hq. { rewrite (proj1 (L0 q Hq)). apply TB, Hq. }
    rewrite (proj2 (L1 j q ltac:(lia) Hq)). apply mix_pos; [apply Cl; [lia|exact Hq]|apply IH; [lia|exact Hq]|apply Src; lia|apply Src; lia]. }
  intros j q Hj Hq. split; [|apply D; assumption]. replace j with (N - (N - j))%nat by lia. apply U; [lia|exact Hq].
Qed.
Lemma mirrored_pos : forall x q, not_negative n N x -> (q < n)%nat -> 0 <= mirrored md n N x q.
Proof using P.
  clear Ct. intros x q X Hq. destruct P as (_ & _ & _ & _ & _ & _ & Pr). unfold mirrored. destruct (s_Rs md) as [r|]; [|lra]. apply total_nonneg. intros i Hi.
  apply Rmult_le_pos; [apply (Pr r q i eq_refl Hq Hi)|apply X; [lia|exact Hi]].
Qed.
Lemma nothing_pos : not_negative n N nothing. Proof using. clear. intros j q _ _. cbn [nothing up down]. lra. Qed.
Lemma order_pos : forall x, successive md n g N x -> forall k, not_negative n N (x k).
Proof using P Ct.
  intros x [X0 X1] k. pose proof P as (_ & Pq & _). induction k as [|k IH].
  - apply (lit_pos 1 _ _ _ _ ltac:(lra) X0 nothing_pos). intros q Hq. split; apply Pq, Hq.
  - apply (lit_pos 0 _ _ _ _ ltac:(lra) (X1 k) IH). intros q Hq. split; [apply Pq, Hq|apply mirrored_pos; [exact IH|exact Hq]].
Qed.
Lemma sum_pos : forall x, successive md n g N x -> forall K, not_negative n N (summed_up x K).
Proof using P Ct.
  intros x Sx. induction K as [|K IH]; [apply nothing_pos|]. intros j q Hj Hq. destruct (IH j q Hj Hq). destruct (order_pos x Sx K j q Hj Hq). cbn [summed_up plus up down]. lra.
Qed.
Lemma sum_grows : forall x, successive md n g N x -> forall K d j q, (j <= N)%nat -> (q < n)%nat -> up (summed_up x K) j q <= up (summed_up x (d + K)) j q /\ down (summed_up x K) j q <= down (summed_up x (d + K)) j q.
Proof using P Ct.
  intros x Sx K d j q Hj Hq. induction d as [|d IH]; [split; apply Rle_refl|]. cbn [Nat.add summed_up plus up down]. destruct (order_pos x Sx (d + K) j q Hj Hq). lra.
Qed.
Lemma rest_pos : forall x Y, successive md n g N x -> (forall q, (q < n)%nat -> s_top md q = 0) -> whole md n g N Y -> not_negative n N Y ->
  forall K, not_negative n N (combined 1 (-1) Y (summed_up x K)).
Proof using P Ct.
  intros x Y Sx Top W YP K. induction K as [|K IH].
  - intros j q Hj Hq. destruct (YP j q Hj Hq). cbn [combined summed_up nothing up down]. lra.
  - pose proof (lit_lin _ _ _ _ 1 (-1) _ _ _ _ _ _ _ _ _ _ W (sums_lit _ _ _ _ x K Sx)) as L. replace (1 * 1 + -1 * 1) with 0 in L by ring.
    apply (lit_pos 0 _ _ _ _ ltac:(lra) L IH). intros q Hq. split.
    + rewrite (Top q Hq). lra.
    + replace (1 * (s_bot md q + mirrored md n N Y q) + -1 * (s_bot md q + mirrored md n N (summed_up x K) q)) with (1 * mirrored md n N Y q + -1 * mirrored md n N (summed_up x K) q) by ring.
      rewrite <- mirrored_lin. apply mirrored_pos; [exact IH|exact Hq].
Qed.
End Positive.

(** No radiance that is reported is negative. *)
Theorem C60_not_negative : forall md n_layers m_quad n_stokes vector max_os max_tau tol r, 0 < max_tau -> vector = true \/ scalar (S m_quad * n_stokes) n_layers md ->
  positive (S m_quad * n_stokes) n_layers md -> rtm_sos md n_layers m_quad n_stokes vector max_os max_tau tol = Answer r ->
  forall q, (q < S m_quad * n_stokes)%nat -> 0 <= o_up_top r q /\ 0 <= o_down_top r q /\ 0 <= o_up_bottom r q /\ 0 <= o_down_bottom r q.
Proof.
  intros md n_layers m_quad n_stokes vector max_os max_tau tol r M Sm P Rn q Hq. destruct (run_orders _ _ _ _ _ _ _ _ _ M Sm Rn) as (g & N & x & K & Ct & Sx & _ & K1 & _ & _).
  destruct (run_cells _ _ _ _ _ _ _ _ _ Rn) as (cs & _ & E). destruct (K1 q) as [-> ->]. pose proof (sum_pos _ _ _ _ _ _ P Ct x Sx K) as X.
  refine (conj _ (conj _ (conj _ _))); [apply X; [lia|exact Hq]|rewrite E; apply Rle_refl|rewrite E; apply Rle_refl|apply X; [lia|exact Hq]].
Qed.
Print Assumptions C60_not_negative.

(** More orders, or a lower tolerance, never make a radiance smaller. *)
Theorem C60_grows : forall md n_layers m_quad n_stokes vector max_os max_os' max_tau tol tol' r r', 0 < max_tau -> vector = true \/ scalar (S m_quad * n_stokes) n_layers md ->
  positive (S m_quad * n_stokes) n_layers md -> (max_os <= max_os')%nat -> tol' <= tol ->
  rtm_sos md n_layers m_quad n_stokes vector max_os max_tau tol = Answer r -> rtm_sos md n_layers m_quad n_stokes vector max_os' max_tau tol' = Answer r' ->
  forall q, (q < S m_quad * n_stokes)%nat -> o_up_top r q <= o_up_top r' q /\ o_down_bottom r q <= o_down_bottom r' q.
Proof.
  intros md n_layers m_quad n_stokes vector max_os max_os' max_tau tol tol' r r' M Sm P Mo Tl Rn Rn' q Hq.
  destruct (run_cells _ _ _ _ _ _ _ _ _ Rn) as (cs & C & ->). destruct (run_cells _ _ _ _ _ _ _ _ _ Rn') as (cs' & C' & ->). rewrite C in C'. injection C' as <-. cbn [o_up_top o_down_bottom].
  pose proof (cuts_ok _ _ _ _ M C) as Ct.
  assert (forall j, (j < length cs)%nat -> (index cs j < n_layers)%nat) as Rg by (intros j Hj; apply (proj1 (cuts_layer _ _ _ _ _ Ct j Hj))).
  destruct (summed_ok md n_layers cs vector m_quad n_stokes tol max_os) as (K & K0 & K1 & K2 & K3 & K4). destruct (summed_ok md n_layers cs vector m_quad n_stokes tol' max_os') as (L & L0 & L1 & L2 & L3 & L4).
  rewrite K1, K2, L1, L2. assert (K <= L)%nat as KL.
  { destruct (Nat.le_gt_cases K L) as [l|l]; [exact l|]. exfalso. destruct L3 as [->|[L3 L5]]; [lia|]. apply (K4 (L - 1)%nat ltac:(lia)). intros i Hi. destruct (L5 i Hi). split; lra. }
  replace L with ((L - K) + K)%nat by lia. pose proof (sum_grows _ _ _ _ _ _ P Ct _ (successive_ok _ _ _ _ _ _ Rg Sm) K (L - K)%nat) as G.
  split; apply G; try exact Hq; lia.
Qed.
Print Assumptions C60_grows.

(** When nothing enters at the top, the radiances never exceed those of the whole light. *)
Theorem C60_below : forall md n_layers m_quad n_stokes vector max_os max_tau tol r, 0 < max_tau -> vector = true \/ scalar (S m_quad * n_stokes) n_layers md ->
  positive (S m_quad * n_stokes) n_layers md -> (forall q, (q < S m_quad * n_stokes)%nat -> s_top md q = 0) -> rtm_sos md n_layers m_quad n_stokes vector max_os max_tau tol = Answer r ->
  exists g N, let n := (S m_quad * n_stokes)%nat in cuts max_tau md n_layers g N /\
    forall Y, whole md n g N Y -> not_negative n N Y -> forall q, (q < n)%nat -> o_up_top r q <= up Y 0 q /\ o_down_bottom r q <= down Y N q.
Proof.
  intros md n_layers m_quad n_stokes vector max_os max_tau tol r M Sm P Top Rn. destruct (run_orders _ _ _ _ _ _ _ _ _ M Sm Rn) as (g & N & x & K & Ct & Sx & _ & K1 & _ & _).
  exists g, N. cbv zeta. split; [exact Ct|]. intros Y W YP q Hq. destruct (K1 q) as [-> ->]. pose proof (rest_pos _ _ _ _ _ _ P Ct x Y Sx Top W YP K) as X.
  destruct (X 0%nat q ltac:(lia) Hq) as [X1 _]. destruct (X N q ltac:(lia) Hq) as [_ X2]. cbn [combined up down] in X1, X2. lra.
Qed.
Print Assumptions C60_below.

(** * The unit of light *)
(** The same atmosphere with [c] times as much light falling on it *)
Definition brighter (c : R) (md : medium) : medium :=
  {| s_omega := s_omega md; s_ltau := s_ltau md; s_btran := s_btran md; s_as0 := s_as0 md; s_P0p := s_P0p md; s_P0m := s_P0m md; s_Ppp := s_Ppp md; s_Pmp := s_Pmp md; s_Pmm := s_Pmm md; s_Ppm := s_Ppm md;
     s_F0 := c * s_F0 md; s_qx := s_qx md; s_qw := s_qw md; s_zeroth := s_zeroth md; s_Rs := s_Rs md; s_top := fun q => c * s_top md q; s_bot := fun q => c * s_bot md q |}.
Section Unit_.
Variables (c : R) (md : medium) (n_layers : nat) (cs : list (nat * nat * nat)) (vector : bool) (m_quad n_stokes : nat).
Notation N := (length cs).
Notation md' := (brighter c md).
Definition times (x' x : field) : Prop := forall j q, up x' j q = c * up x j q /\ down x' j q = c * down x j q.
Lemma climb_c : forall add add' start start', (forall k q, add' k q = c * add k q) -> (forall q, start' q = c * start q) -> forall j q, climb md' cs add' start' j q = c * climb md cs add start j q.
Proof using.
  intros add add' start start' A St. induction j as [|j IH]; intros q; cbn [climb]; [apply St|]. rewrite IH, A. change (T md' cs) with (T md cs). ring.
Qed.
Lemma descend_c : forall add add' start start', (forall k q, add' k q = c * add k q) -> (forall q, start' q = c * start q) -> forall j q, descend md' cs add' start' j q = c * descend md cs add start j q.
Proof using.
  intros add add' start start' A St. induction j as [|j IH]; intros q; cbn [descend]; [apply St|]. rewrite IH, A. change (T md' cs) with (T md cs). ring.
Qed.
Lemma first_c : times (first md' n_layers cs) (first md n_layers cs).
Proof using.
  intros j q. cbn [first up down]. split; [apply climb_c|apply descend_c]; try (intros; reflexivity); intros k r; unfold beam_strength; change (btran2 md' n_layers cs) with (btran2 md n_layers cs);
    change (E md' cs) with (E md cs); cbn [brighter s_F0 s_omega s_P0p s_P0m]; unfold Rdiv; ring.
Qed.
Lemma mul_c : forall a v v' q, (forall i, v' i = c * v i) -> mul m_quad n_stokes a v' q = c * mul m_quad n_stokes a v q.
Proof using. intros a v v' q V. unfold mul. rewrite <- total_scale. apply total_ext. intros i _. rewrite V. ring. Qed.
Lemma next_c : forall x' x, times x' x -> times (next md' cs vector m_quad n_stokes x') (next md cs vector m_quad n_stokes x).
Proof using.
  intros x' x X.
  assert (forall a k q, mul m_quad n_stokes a (ends (up x') k) q = c * mul m_quad n_stokes a (ends (up x) k) q) as U by (intros a k q; apply mul_c; intros i; unfold ends; rewrite !(proj1 (X _ _)); ring).
  assert (forall a k q, mul m_quad n_stokes a (ends (down x') k) q = c * mul m_quad n_stokes a (ends (down x) k) q) as D by (intros a k q; apply mul_c; intros i; unfold ends; rewrite !(proj2 (X _ _)); ring).
  intros j q. cbn [next up down]. split; [apply climb_c|apply descend_c].
  - intros k r. rewrite U, D. change (t_p md' cs) with (t_p md cs). change (r_m md' cs vector) with (r_m md cs vector). change (E md' cs) with (E md cs). ring.
  - intros r. cbn [brighter s_Rs]. destruct (s_Rs md) as [a|]; [apply mul_c; intros i; apply X|ring].
  - intros k r. rewrite U, D. change (r_p md' cs) with (r_p md cs). change (t_m md' cs vector) with (t_m md cs vector). change (E md' cs) with (E md cs). ring.
  - intros r. reflexivity.
Qed.
Lemma order_c : forall k, times (nth_order md' n_layers cs vector m_quad n_stokes k) (nth_order md n_layers cs vector m_quad n_stokes k).
Proof using. intros k. unfold nth_order. induction k as [|k IH]; cbn [Nat.iter]; [apply first_c|apply next_c, IH]. Qed.
Lemma sum_c : forall x' x, (forall k, times (x' k) (x k)) -> forall K, times (summed_up x' K) (summed_up x K).
Proof using.
  intros x' x X. induction K as [|K IH]; intros j q; cbn [summed_up nothing plus up down]; [split; ring|]. destruct (IH j q) as [-> ->]. destruct (X K j q) as [-> ->]. split; ring.
Qed.
Lemma spent_c : forall tol x' x, 0 < c -> times x' x -> (spent (c * tol) m_quad n_stokes N x' <-> spent tol m_quad n_stokes N x).
Proof using.
  intros tol x' x C X. split; intros H i Hi; destruct (H i Hi) as [H1 H2].
  - rewrite (proj1 (X _ _)) in H1. rewrite (proj2 (X _ _)) in H2. apply Rmult_lt_reg_l in H1; [|exact C]. apply Rmult_lt_reg_l in H2; [|exact C]. split; assumption.
  - rewrite (proj1 (X _ _)), (proj2 (X _ _)). split; apply Rmult_lt_compat_l; assumption.
Qed.
End Unit_.

(** With [c] times the light and [c] times the tolerance the same runs succeed, and the radiances are [c] times as large. *)
Theorem C60_unit : forall c md n_layers m_quad n_stokes vector max_os max_tau tol r, 0 < c -> rtm_sos md n_layers m_quad n_stokes vector max_os max_tau tol = Answer r ->
  exists r', rtm_sos (brighter c md) n_layers m_quad n_stokes vector max_os max_tau (c * tol) = Answer r' /\
    forall q, o_up_top r' q = c * o_up_top r q /\ o_down_top r' q = c * o_down_top r q /\ o_up_bottom r' q = c * o_up_bottom r q /\ o_down_bottom r' q = c * o_down_bottom r q.
Proof.
  intros c md n_layers m_quad n_stokes vector max_os max_tau tol r C Rn. unfold rtm_sos in *.
  assert (forall k l, cells max_tau (brighter c md) k l = cells max_tau md k l) as Ce. { intros k l. revert k. induction l as [|l IH]; intros k; cbn [cells]; [reflexivity|]. rewrite IH. reflexivity. }
  rewrite Ce. destruct (bind (cells max_tau md 0 n_layers) counted) as [cs| | |]; cbn [bind] in *; [|discriminate..].
  change (finite (brighter c md)) with (finite md). destruct (finite md (S m_quad * n_stokes)); [|discriminate]. injection Rn as <-. eexists. split; [reflexivity|]. cbn [o_up_top o_down_top o_up_bottom o_down_bottom].
  destruct (summed_ok md n_layers cs vector m_quad n_stokes tol max_os) as (K & K0 & K1 & K2 & K3 & K4). destruct (summed_ok (brighter c md) n_layers cs vector m_quad n_stokes (c * tol) max_os) as (L & L0 & L1 & L2 & L3 & L4).
  pose proof (order_c c md n_layers cs vector m_quad n_stokes) as Oc. pose proof (fun k => spent_c c cs m_quad n_stokes tol _ _ C (Oc k)) as Sp.
  assert (K = L) as <-.
  { destruct (Nat.lt_trichotomy K L) as [l|[l|l]]; [exfalso|exact l|exfalso].
    - destruct K3 as [->|[K3 K5]]; [lia|]. apply (L4 (K - 1)%nat ltac:(lia)). apply Sp, K5.
    - destruct L3 as [->|[L3 L5]]; [lia|]. apply (K4 (L - 1)%nat ltac:(lia)). apply Sp, L5. }
  intros q. rewrite K1, K2, L1, L2. destruct (sum_c c _ _ Oc K 0%nat q) as [U _]. destruct (sum_c c _ _ Oc K (length cs) q) as [_ D].
  refine (conj U (conj _ (conj _ D))); ring.
Qed.
Print Assumptions C60_unit.

(** * Instances *)
(** A layer of albedo 1/2 above a black surface *)
Lemma sample_positive : positive (1 * 1) 1 sample.
Proof.
  unfold positive, sample. cbn [slab s_F0 s_qx s_qw s_top s_bot s_omega s_ltau s_btran s_P0p s_P0m s_Ppp s_Ppm s_Pmp s_Pmm s_Rs]. pose proof PI_RGT_0. pose proof (exp_pos (-1)).
  refine (conj _ (conj _ (conj _ (conj _ (conj _ (conj _ _)))))); try (intros; lra); [intros k _; destruct (k =? 0)%nat; lra|]. intros r q i H1. discriminate.
Qed.
Example positive_sample : positive (1 * 1) 1 sample /\ scalar (1 * 1) 1 sample /\ (forall q, s_top sample q = 0) /\ (exists r, rtm_sos sample 1 0 1 false 20 2 (1 / 1000) = Answer r) /\
  (exists r, rtm_sos sample 1 0 1 false 30 2 0 = Answer r) /\ forall g N, cuts 2 sample 1 g N -> whole sample (1 * 1) g N sample_light /\ not_negative (1 * 1) N sample_light /\ 0 < up sample_light 0 0%nat.
Proof.
  destruct orders_sample as (r & R0 & Sc & Wh). destruct (slab_runs (1 / 2) 1 1 (exp (-1)) 1 1 1 1 0 0 true ltac:(lra) 30 0) as (r2 & R2 & _).
  refine (conj sample_positive (conj Sc (conj (fun _ => eq_refl) (conj (ex_intro _ r R0) (conj (ex_intro _ r2 R2) _))))). intros g N Ct. destruct (Wh g N Ct) as (_ & W & _ & Z). refine (conj W (conj _ Z)).
  intros j q _ _. cbn [sample_light up down Nat.eqb] in *. destruct (j =? 0)%nat; lra.
Qed.

(** The tolerance is absolute: at the same tolerance, with more light falling on the same atmosphere, the radiances are not as many times larger. *)
Lemma brighter_slab : forall c omega tau b0 b1 slant p0 F w zeroth, brighter c (slab omega tau b0 b1 slant p0 F w zeroth 0 0) = slab omega tau b0 b1 slant p0 (c * F) w zeroth 0 0.
Proof.
  intros. unfold brighter, slab. cbn [s_omega s_ltau s_btran s_as0 s_P0p s_P0m s_Ppp s_Pmp s_Pmm s_Ppm s_F0 s_qx s_qw s_zeroth s_Rs s_top s_bot]. rewrite Rmult_0_r, Rmult_assoc. reflexivity.
Qed.
Theorem C60_unit_refuted : forall tol, 0 < tol -> exists c md r r', 0 < c /\ positive (1 * 1) 1 md /\ scalar (1 * 1) 1 md /\ rtm_sos md 1 0 1 false 3 2 tol = Answer r /\
  rtm_sos (brighter c md) 1 0 1 false 3 2 tol = Answer r' /\ c * o_up_top r 0%nat < o_up_top r' 0%nat.
Proof.
  intros tol Tl. pose proof (exp_pos (- (1))) as E0. assert (exp (- (1)) < exp 0) as E1 by (apply exp_increasing; lra). rewrite exp_0 in E1. set (d := 1 - exp (- (1))).
  assert (0 < d < 1) as D0 by (unfold d; lra). assert (0 < d * d < 1) as D1 by nra. assert (0 < 4 / (d * d)) as C0 by (apply Rdiv_lt_0_compat; lra).
  assert (forall f, 0 < f -> exists r, rtm_sos (slab 1 1 1 1 0 1 f 2 true 0 0) 1 0 1 false 3 2 tol = Answer r /\
    (d * d * f < tol -> o_up_top r 0%nat = d * f + d * d * f) /\ (tol < d * d * f -> o_up_top r 0%nat = d * f + d * d * f + d * d * d * f)) as X.
  { intros f Hf. set (md := slab 1 1 1 1 0 1 f 2 true 0 0). destruct (slab_runs 1 1 1 1 0 1 f 2 0 0 true ltac:(lra) 3 tol) as (r & R0 & _). exists r. split; [exact R0|].
    destruct (C58_orders _ _ _ _ _ _ 2 _ _ ltac:(lra) (or_intror (slab_scalar 1 1 1 1 0 1 f 2 0 0 true)) R0) as (g & N & x & K & Ct & [X0 X1] & K0 & K1 & K2 & K3). fold md in Ct, X0, X1.
    pose proof (proj1 (slab_cut 1 1 1 1 0 1 f 2 0 0 true ltac:(lra) g N Ct)) as N1. subst N. destruct (K1 0%nat) as [-> _].
    assert (half 1 1 1 1 0 1 f 2 0 0 true = 1) as Hh by (unfold half, fraction; cbn [slab s_zeroth]; lra).
    destruct (slab_lit 1 1 1 1 0 1 f 2 0 0 true ltac:(lra) g 1 _ _ _ _ _ Ct X0) as (A1 & A2 & A3 & A4).
    destruct (slab_lit 1 1 1 1 0 1 f 2 0 0 true ltac:(lra) g 1 _ _ _ _ _ Ct (X1 0%nat)) as (B1 & B2 & B3 & B4).
    destruct (slab_lit 1 1 1 1 0 1 f 2 0 0 true ltac:(lra) g 1 _ _ _ _ _ Ct (X1 1%nat)) as (C1 & C2 & C3 & C4).
    unfold mirrored in *. unfold md in *. cbn [slab s_Rs s_top s_bot nothing up down] in *. rewrite Hh in *. fold d in A3, A4, B3, B4, C3, C4.
    assert (up (x 0%nat) 0 0%nat = d * f /\ down (x 0%nat) 1 0%nat = d * f) as [U0 V0] by (rewrite A3, A4; split; field).
    assert (up (x 1%nat) 0 0%nat = d * d * f /\ down (x 1%nat) 1 0%nat = d * d * f) as [U1 V1] by (rewrite B3, B4, A1, A2, U0, V0; split; field).
    assert (up (x 2%nat) 0 0%nat = d * d * d * f) as U2 by (rewrite C3, B1, B2, U1, V1; field).
    assert (spent tol 0 1 1 (x 1%nat) <-> d * d * f < tol) as Sp.
    { split; [intros H; destruct (H 0%nat ltac:(lia)) as [H1 _]; cbn [Nat.mul] in H1; rewrite U1 in H1; exact H1|]. intros H i Hi. replace i with 0%nat by lia. cbn [Nat.mul]. rewrite U1, V1. split; exact H. }
    cbn [Nat.max] in *. split; intros H.
    - assert (K = 2%nat) as ->. { destruct (Nat.eq_dec K 3) as [->|]; [exfalso; apply (K3 1%nat ltac:(lia)), Sp, H|]. destruct K2 as [|[? _]]; lia. }
      cbn [summed_up plus nothing up]. rewrite U0, U1. ring.
    - assert (K = 3%nat) as ->. { destruct K2 as [K2|[K2 K4]]; [exact K2|]. destruct (Nat.eq_dec K 3) as [|ne]; [assumption|]. replace K with 2%nat in K4 by lia. apply Sp in K4. lra. }
      cbn [summed_up plus nothing up]. rewrite U0, U1, U2. ring. }
  destruct (X (tol / 2) ltac:(lra)) as (r & R0 & R1 & _). destruct (X (4 / (d * d) * (tol / 2)) ltac:(apply Rmult_lt_0_compat; lra)) as (r' & R0' & _ & R1').
  exists (4 / (d * d)), (slab 1 1 1 1 0 1 (tol / 2) 2 true 0 0), r, r'. refine (conj C0 (conj _ (conj (slab_scalar _ _ _ _ _ _ _ _ _ _ _) (conj R0 (conj _ _))))).
  - unfold positive. cbn [slab s_F0 s_qx s_qw s_top s_bot s_omega s_ltau s_btran s_P0p s_P0m s_Ppp s_Ppm s_Pmp s_Pmm s_Rs]. pose proof PI_RGT_0.
    refine (conj _ (conj _ (conj _ (conj _ (conj _ (conj _ _)))))); try (intros; lra); [|intros k _; destruct (k =? 0)%nat; lra|]; [apply Rmult_le_pos; lra|]. intros a q i H1. discriminate.
  - rewrite brighter_slab. exact R0'.
  - rewrite R1 by (assert (d * d * (tol / 2) < 1 * (tol / 2)) by (apply Rmult_lt_compat_r; lra); lra). rewrite R1' by (replace (d * d * (4 / (d * d) * (tol / 2))) with (2 * tol) by (field; lra); lra).
    assert (0 < d * d * d * (4 / (d * d) * (tol / 2))) by (apply Rmult_lt_0_compat; [apply Rmult_lt_0_compat; lra|apply Rmult_lt_0_compat; lra]). lra.
Qed.
Print Assumptions C60_unit_refuted.
