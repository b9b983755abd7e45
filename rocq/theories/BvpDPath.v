(** What the boundary value solver is given of a layer varies with the derivatives that it is given. *)
From Coq Require Import Reals Bool Arith Lia Lra List.
From Verif Require Import Base DeltaMSpec DeltaMProofs BeamProofs AddingModel AddingSpec AddingMat AddingDeriv AddingCalls RadianceModel RadianceProofs SingleProofs
  EigModel EigSpec EigMat EigCore EigProofs EigEnergy EigLayer EigDModel EigDSpec EigDProofs EigPath EigDLayer BvpModel BvpSpec BvpProofs BvpDModel BvpDProofs.
Open Scope R_scope.

Definition wderiv (n : nat) (solar thermal : bool) (W : R -> waves) (p : R) (d : waves) : Prop :=
  derivable_pt_lim (fun s => b_ltau (W s)) p (b_ltau d) /\ vderiv n (fun s => b_nu (W s)) p (b_nu d) /\
  mderiv n (fun s => b_Xp (W s)) p (b_Xp d) /\ mderiv n (fun s => b_Xm (W s)) p (b_Xm d) /\
  (solar = true -> derivable_pt_lim (fun s => b_atran (W s)) p (b_atran d) /\ derivable_pt_lim (fun s => b_as0 (W s)) p (b_as0 d) /\
                   vderiv n (fun s => b_Fp (W s)) p (b_Fp d) /\ vderiv n (fun s => b_Fm (W s)) p (b_Fm d)) /\
  (thermal = true -> vderiv n (fun s => b_0p (W s)) p (b_0p d) /\ vderiv n (fun s => b_0m (W s)) p (b_0m d) /\
                     vderiv n (fun s => b_1p (W s)) p (b_1p d) /\ vderiv n (fun s => b_1m (W s)) p (b_1m d)).
Lemma wderiv_same : forall n solar thermal V W p d, (forall s, V s = W s) -> wderiv n solar thermal V p d -> wderiv n solar thermal W p d.
Proof.
  intros n solar thermal V W p d E (A1 & A2 & A3 & A4 & A5 & A6).
  assert (forall f : waves -> R, around p (fun s => f (V s) = f (W s))) as C by (intros f; apply around_true; intros s; rewrite E; reflexivity).
  refine (conj _ (conj _ (conj _ (conj _ (conj _ _))))).
  - exact (eq_around _ _ p _ (C b_ltau) A1).
  - intros i Hi. exact (eq_around _ _ p _ (C (fun w => b_nu w i)) (A2 i Hi)).
  - intros i j Hi Hj. exact (eq_around _ _ p _ (C (fun w => b_Xp w i j)) (A3 i j Hi Hj)).
  - intros i j Hi Hj. exact (eq_around _ _ p _ (C (fun w => b_Xm w i j)) (A4 i j Hi Hj)).
  - intros T. destruct (A5 T) as (B1 & B2 & B3 & B4). refine (conj _ (conj _ (conj _ _))).
    + exact (eq_around _ _ p _ (C b_atran) B1).
    + exact (eq_around _ _ p _ (C b_as0) B2).
    + intros i Hi. exact (eq_around _ _ p _ (C (fun w => b_Fp w i)) (B3 i Hi)).
    + intros i Hi. exact (eq_around _ _ p _ (C (fun w => b_Fm w i)) (B4 i Hi)).
  - intros T. destruct (A6 T) as (B1 & B2 & B3 & B4). refine (conj _ (conj _ (conj _ _))); intros i Hi.
    + exact (eq_around _ _ p _ (C (fun w => b_0p w i)) (B1 i Hi)).
    + exact (eq_around _ _ p _ (C (fun w => b_0m w i)) (B2 i Hi)).
    + exact (eq_around _ _ p _ (C (fun w => b_1p w i)) (B3 i Hi)).
    + exact (eq_around _ _ p _ (C (fun w => b_1m w i)) (B4 i Hi)).
Qed.

Section Layer.
Variable n : nat.
Variable solve : nat -> mat -> mat -> mat.
Variable eig : mat -> vec * mat.
Hypothesis Pos : (0 < n)%nat.
Hypothesis Solve1 : solver n (solve n).
Hypothesis EigS : eigensolver n eig.
Hypothesis Norm : normalised n eig.
Variables (solar thermal : bool) (X : R -> slab) (p : R) (dx : slab) (dl db dt : bool).
Notation x := (X p).
Notation cc s := (factor (X s) 1 * omega (X s)).
Hypothesis Var : varies n dl (solar && db) (thermal && dt) X p dx.
Hypothesis Near : around p (fun s => scatters n (qx (X s)) (qw (X s)) (cc s) (P_pp (X s)) (P_mp (X s)) /\ 0 <= ltau (X s)).
Hypothesis Sep : separable n (qx x) (qw x) (cc p) (P_pp x) (P_mp x).
Hypothesis Simple : dl = true -> solver (S n) (solve (S n)) /\ simple_spectrum n (qx x) (qw x) (cc p) (P_pp x) (P_mp x) /\ coupled n (qx x) (qw x) (cc p) (P_pp x) (P_mp x).
Hypothesis Sol : solar = true -> as_0 x <> 0 /\ nonresonant n (qx x) (qw x) (cc p) (P_pp x) (P_mp x) (as_0 x) /\ (dl = true -> db = true).
Hypothesis Th : thermal = true -> solver (n + n) (solve (n + n)%nat) /\ ltau x <> 0 /\ (dl = true -> dt = true).
Notation dw := (masked dl db dt (waves_l_of n solve eig dl x dx)).
Notation dz := (still_light dl (solar && db) (thermal && dt) dx).
Notation AZ := (all_z n solve X p dx dl (solar && db) (thermal && dt) Var Simple).
Notation SC := (Scat n X p Near).
Notation EE := (E0 n eig EigS X p Near Sep).

Lemma scaled_source : forall (f : R -> vec) f' b b', derivable_pt_lim b p b' -> vderiv n f p f' -> vderiv n (fun s => vscale (b s) (f s)) p (vadd (vscale b' (f p)) (vscale (b p) f')).
Proof. intros. apply vd_scale; assumption. Qed.
Lemma beam_part : solar = true -> derivable_pt_lim (fun s => atran (X s)) p (b_atran dw) /\ derivable_pt_lim (fun s => as_0 (X s)) p (b_as0 dw) /\
  vderiv n (fun s => vscale (btran (X s)) (Fs_p n solve (X s))) p (b_Fp dw) /\ vderiv n (fun s => vscale (btran (X s)) (Fs_m n solve (X s))) p (b_Fm dw).
Proof.
  intros T. destruct (Sol T) as (As & NR & Lb). pose proof (mu_nz n x SC) as Qx. pose proof (beam_f_nonsingular n x SC As NR) as BN.
  pose proof AZ as (Do & Dt & Dp & Dm & Dmm & Dpm & Da & Dat & Dbt & _).
  set (z := dz) in *.
  assert (as_0 z = when db (as_0 dx) /\ atran z = when db (atran dx) /\ btran z = when db (btran dx)) as (Z1 & Z2 & Z3) by (unfold z; cbn [still_light as_0 atran btran]; rewrite T; cbn [andb]; split; [|split]; reflexivity).
  cbn [masked waves_l_of b_atran b_as0 b_Fp b_Fm]. rewrite <- Z1, <- Z2. refine (conj Dat (conj Da _)).
  pose proof (d_Fs_p n solve Pos X p z (Fixed n X p dx dl _ _ Var) Do Dp Dm Qx Solve1 Dmm Dpm Da As BN) as FP.
  pose proof (d_Fs_m n solve Pos X p z (Fixed n X p dx dl _ _ Var) Do Dp Dm Qx Solve1 Dmm Dpm Da As BN) as FM.
  pose proof (scaled_source _ _ _ _ Dbt FP) as GP. pose proof (scaled_source _ _ _ _ Dbt FM) as GM. cbv beta in GP, GM.
  case_eq dl; intros D.
  - rewrite (Lb D) in Z3 |- *. cbn [when] in Z3 |- *.
    assert (Fs_p_l n solve true x z = Fs_p_l n solve true x dx /\ Fs_m_l n solve true x z = Fs_m_l n solve true x dx) as (Q1 & Q2).
    { unfold z. rewrite D, T, (Lb D). cbn [andb]. split; reflexivity. }
    rewrite Z3, Q1 in GP. rewrite Z3, Q2 in GM. split; assumption.
  - assert (omega z = 0 /\ ltau z = 0 /\ P_pp z = zmat /\ P_mp z = zmat /\ Q_mm z = zvec /\ Q_pm z = zvec) as Z. { unfold z. cbn [still_light omega ltau P_pp P_mp Q_mm Q_pm]. rewrite D. tauto. }
    case_eq db; intros B; rewrite B in Z1, Z2, Z3; cbn [when] in Z1, Z2, Z3 |- *.
    + pose proof (q_Fp n solve Pos x z dx Z Solve1 BN Z1) as QP. pose proof (q_Fm n solve Pos x z dx Z Solve1 BN Z1) as QM.
      split; [eapply vderiv_ext; [|exact GP]|eapply vderiv_ext; [|exact GM]]; intros i Hi; unfold vadd, vscale; rewrite Z3, ?(QP i Hi), ?(QM i Hi); reflexivity.
    + pose proof (q_Fp0 n solve Pos x z Z Solve1 BN Z1) as QP. pose proof (q_Fm0 n solve Pos x z Z Solve1 BN Z1) as QM.
      split; [eapply vderiv_ext; [|exact GP]|eapply vderiv_ext; [|exact GM]]; intros i Hi; unfold vadd, vscale; rewrite Z3, ?(QP i Hi), ?(QM i Hi); ring.
Qed.
Lemma thermal_part : thermal = true -> vderiv n (fun s => F0_p n solve (X s)) p (b_0p dw) /\ vderiv n (fun s => F0_m n solve (X s)) p (b_0m dw) /\
  vderiv n (fun s => F1_p n solve (X s)) p (b_1p dw) /\ vderiv n (fun s => F1_m n solve (X s)) p (b_1m dw).
Proof.
  intros T. destruct (Th T) as (Solve2 & LN & Lt). pose proof (mu_nz n x SC) as Qx. pose proof (wide_nonsingular n eig x Pos Qx EE (evals_pos n eig x SC EE)) as WN.
  pose proof AZ as (Do & Dt & Dp & Dm & _ & _ & _ & _ & _ & Da & Db).
  set (z := dz) in *.
  pose proof (Fixed n X p dx dl _ _ Var) as Fx.
  pose proof (d_F0_p n solve Pos X p z Fx Do Dt Dp Dm Qx Solve2 Da Db LN WN) as G1.
  pose proof (d_F0_m n solve Pos X p z Fx Do Dt Dp Dm Qx Solve2 Da Db LN WN) as G2.
  pose proof (d_F1_p n solve Pos X p z Fx Do Dt Dp Dm Qx Solve2 Da Db LN WN) as G3.
  pose proof (d_F1_m n solve Pos X p z Fx Do Dt Dp Dm Qx Solve2 Da Db LN WN) as G4.
  cbn [masked waves_l_of b_0p b_0m b_1p b_1m].
  case_eq dl; intros D.
  - rewrite (Lt D). cbn [when].
    assert (z = still_light true (solar && db) true dx) as Ez by (unfold z; rewrite D, T, (Lt D); reflexivity).
    rewrite Ez in G1, G2, G3, G4. refine (conj G1 (conj G2 (conj G3 G4))).
  - assert (omega z = 0 /\ ltau z = 0 /\ P_pp z = zmat /\ P_mp z = zmat /\ Q_mm z = zvec /\ Q_pm z = zvec) as Z. { unfold z. cbn [still_light omega ltau P_pp P_mp Q_mm Q_pm]. rewrite D. tauto. }
    case_eq dt; intros B; cbn [when].
    + assert (planck0 z = planck0 dx /\ planck1 z = planck1 dx) as PP by (unfold z; cbn [still_light planck0 planck1]; rewrite B, T; split; reflexivity).
      pose proof (q_F0_p n solve Pos x z dx Z Solve2 WN PP) as A1. pose proof (q_F0_m n solve Pos x z dx Z Solve2 WN PP) as A2.
      pose proof (q_F1_p n solve Pos x z dx Z Solve2 WN PP) as A3. pose proof (q_F1_m n solve Pos x z dx Z Solve2 WN PP) as A4.
      refine (conj _ (conj _ (conj _ _))); [eapply vderiv_ext; [exact A1|exact G1]|eapply vderiv_ext; [exact A2|exact G2]|eapply vderiv_ext; [exact A3|exact G3]|eapply vderiv_ext; [exact A4|exact G4]].
    + assert (planck0 z = planck0 z /\ planck1 z = planck1 z) as PP by (split; reflexivity).
      assert (planck0 z = 0 /\ planck1 z = 0) as (Z0 & Z1) by (unfold z; cbn [still_light planck0 planck1]; rewrite B, T; split; reflexivity).
      assert (forall v, (forall i, (i < n + n)%nat -> v i = 0) -> forall i, (i < n + n)%nat -> csolve (solve (n + n)%nat) (ther_w n x) v i = 0) as CZ.
      { intros v. apply (csolve_0 (n + n) ltac:(lia) _ _ v Solve2 WN). }
      assert (forall i, (i < n + n)%nat -> ther_a1_l n solve false x z i = 0) as A1. { apply CZ. intros i _. unfold slope_l. rewrite Z0, Z1. unfold Rdiv. ring. }
      assert (forall i, (i < n + n)%nat -> ther_a0_l n solve false x z i = 0) as A0. { apply CZ. intros i Hi. unfold signed. rewrite Z0, A1 by exact Hi. ring. }
      refine (conj _ (conj _ (conj _ _))).
      * eapply vderiv_ext; [|exact G1]. intros i Hi. rewrite (q_F0_p n solve Pos x z z Z Solve2 WN PP i Hi). apply A0. lia.
      * eapply vderiv_ext; [|exact G2]. intros i Hi. rewrite (q_F0_m n solve Pos x z z Z Solve2 WN PP i Hi). apply A0. lia.
      * eapply vderiv_ext; [|exact G3]. intros i Hi. rewrite (q_F1_p n solve Pos x z z Z Solve2 WN PP i Hi). unfold F1_p_l, vadd, vscale, upper. rewrite A0, A1 by lia. ring.
      * eapply vderiv_ext; [|exact G4]. intros i Hi. rewrite (q_F1_m n solve Pos x z z Z Solve2 WN PP i Hi). unfold F1_m_l, vadd, vscale, lower. rewrite A0, A1 by lia. ring.
Qed.
Lemma layer_moves : exists E : R -> mat -> vec * mat, waves_of n solve (E p) x = waves_of n solve eig x /\
  around p (fun s => eigensystem n (gam n (X s)) (E s (gam n (X s)))) /\ wderiv n solar thermal (fun s => waves_of n solve (E s) (X s)) p dw.
Proof.
  pose proof (mu_nz n x SC) as Qx. pose proof AZ as (_ & Dl & _).
  assert (derivable_pt_lim (fun s => ltau (X s)) p (b_ltau dw)) as DL.
  { eapply dl_eq; [exact Dl|]. cbn [still_light ltau masked waves_l_of b_ltau]. reflexivity. }
  case_eq dl; intros D.
  - pose proof Var as V. unfold varies in V. rewrite D in V. destruct V as (F & (Do & Dt & Dp & Dm & _) & _). destruct (Simple D) as (SS & _).
    destruct (eigenpath_exists n (fun s => gam n (X s)) p (gam_l n x dx) (eig (gam n x))) as (e & lam' & v' & P & H).
    + exact (d_gam n X p dx F Do Dp Dm Qx).
    + exact EE.
    + exact (Dist n solve eig EigS X p dl Near Sep Simple D).
    + exists (fun s _ => e s). pose proof (evals_pos n eig x SC EE) as Ev.
      pose proof (Dist n solve eig EigS X p dl Near Sep Simple D) as Di. pose proof (Triv n solve eig Pos EigS Norm X p dl Near Sep Simple D) as Tr.
      refine (conj _ (conj (proj1 P) _)).
      * unfold waves_of. rewrite (nu_E n eig X p e H), (X_p_E n eig X p e H), (X_m_E n eig X p e H). reflexivity.
      * pose proof beam_part as BP. pose proof thermal_part as TP. rewrite D in DL, BP, TP. refine (conj DL (conj _ (conj _ (conj _ (conj BP TP))))).
        -- exact (d_nu n solve eig Pos X p dx F Do Dp Dm Qx e lam' v' P H Ev Di Tr SS).
        -- exact (d_Xp n solve eig Pos X p dx F Do Dp Dm Qx e lam' v' P H Ev Di Tr SS).
        -- exact (d_Xm n solve eig Pos X p dx F Do Dp Dm Qx e lam' v' P H Ev Di Tr SS).
  - pose proof Var as V. unfold varies in V. rewrite D in V. destruct V as (F & C & _).
    assert (forall s, gam n (X s) = gam n x /\ t_plus_r (X s) = t_plus_r x) as Q.
    { intros s. assert (same_optics (X s) x) as SO by (destruct (F s) as (A1 & A2 & A3 & _); destruct (C s) as (B1 & B2 & B3 & B4 & _); unfold same_optics; tauto).
      unfold gam. rewrite (same_tpr _ _ SO), (same_tmr _ _ SO). split; reflexivity. }
    assert (forall s, nu n eig (X s) = nu n eig x /\ X_p n eig (X s) = X_p n eig x /\ X_m n eig (X s) = X_m n eig x) as K.
    { intros s. destruct (Q s) as (Q1 & Q2). unfold X_p, X_m, w1n, nu, evals, evecs. rewrite Q1, Q2. split; [|split]; reflexivity. }
    exists (fun _ => eig). refine (conj eq_refl (conj _ _)).
    + apply around_true. intros s. rewrite (proj1 (Q s)). exact EE.
    + pose proof beam_part as BP. pose proof thermal_part as TP. rewrite D in DL, BP, TP. refine (conj DL (conj _ (conj _ (conj _ (conj BP TP))))); cbn [waves_of b_nu b_Xp b_Xm masked when].
      * intros i Hi. apply (eq_around (fun _ => nu n eig x i)); [|apply dl_const]. apply around_true. intros s. rewrite (proj1 (K s)). reflexivity.
      * intros i j Hi Hj. apply (eq_around (fun _ => X_p n eig x i j)); [|apply dl_const]. apply around_true. intros s. rewrite (proj1 (proj2 (K s))). reflexivity.
      * intros i j Hi Hj. apply (eq_around (fun _ => X_m n eig x i j)); [|apply dl_const]. apply around_true. intros s. rewrite (proj2 (proj2 (K s))). reflexivity.
Qed.
End Layer.
