(** C45: every medium whose streams all have weight is separable, so the eigenvalue solver needs no hypothesis on its eigenvalues. *)
From Coq Require Import Reals Bool Arith Lia Lra.
From Verif Require Import Base DeltaMSpec DeltaMProofs AddingModel AddingSpec AddingMat RadianceModel SingleProofs
  EigModel EigSpec EigMat EigCore EigProofs EigEnergy EigLayer EigProperties SpectralProofs.
Open Scope R_scope.

(** The matrix whose eigenvalues the solver asks for has a basis of real eigenvectors, and its eigenvalues are positive: the square root that
    follows is defined. *)
Theorem C45_separable : forall n mu w c Ps Po, scatters n mu w c Ps Po -> (forall i, (i < n)%nat -> 0 < w i) -> separable n mu w c Ps Po.
Proof. intros n mu w c Ps Po H W. destruct (medium_spectral n mu w c Ps Po H W) as [e [E _]]. exists e. exact E. Qed.
Theorem C45_eigenvalues_positive : forall n mu w c Ps Po e, scatters n mu w c Ps Po -> (forall i, (i < n)%nat -> 0 < w i) ->
  eigensystem n (second_order n mu w c Ps Po) e -> forall k, (k < n)%nat -> 0 < fst e k.
Proof.
  intros n mu w c Ps Po [lam V] H W [Inv E] k Hk. cbn [fst snd] in *. pose proof H as [P [Sy _]].
  assert (nonzero n (fun i => V i k)) as N.
  { destruct (zero_or n (fun i => V i k)) as [Y|Z]; [exact Y|]. exfalso. cbv beta in Z.
    assert (ident k k = 0) as B.
    { apply (nonsingular_injective n V Inv (fun j => ident j k)); [|exact Hk]. intros i Hi. unfold mv.
      rewrite (total_ext n _ (fun j => ident j k * V i j)) by (intros; ring). rewrite (total_ident n k (V i) Hk). apply Z, Hi. }
    unfold ident in B. rewrite Nat.eqb_refl in B. lra. }
  set (v := fun i => V i k) in *. set (G := weighed w c (minus Ps Po)).
  assert (0 < pairing n G v v) as Gp. { pose proof (form_nonzero n mu w c Ps Po H W v (fun k => - v k) N) as F. rewrite <- minus_form in F. unfold G. lra. }
  assert (pairing n G v (mv n (second_order n mu w c Ps Po) v) = lam k * pairing n G v v) as Q.
  { rewrite (pair_ext n G v (fun i => 1 * v i) _ (fun i => lam k * v i)); [rewrite pair_scale; ring|intros i _; ring|]. intros i Hi. exact (E i k Hi Hk). }
  unfold G in Q. rewrite (pair_second n mu w c Ps Po H W) in Q.
  set (y := fun k0 => em mu w k0 * mv n (weighed w c (minus Ps Po)) v k0) in *.
  assert (nonzero n y) as Ny.
  { destruct (zero_or n y) as [Y|Z]; [exact Y|]. exfalso. assert (pairing n G v v = 0); [|lra]. unfold pairing. apply total_zero. intros i Hi.
    specialize (Z i Hi). unfold y in Z. apply Rmult_integral in Z. destruct Z as [Z|Z]; [contradiction (em_nz n mu w c Ps Po H W i Hi Z)|]. unfold G. rewrite Z. ring. }
  pose proof (form_nonzero n mu w c Ps Po H W y y Ny) as F. rewrite <- plus_form in F. fold G in Q.
  apply Rnot_le_lt. intro L. assert (lam k * pairing n G v v <= 0) by nra. lra.
Qed.
(** With additional output directions, which have no weight, the medium is separable if none of their cosines is the inverse of the decay rate of a
    solution ... *)
Theorem C45_separable_directions : forall n m mu w c Ps Po, scatters (n + m) mu w c Ps Po ->
  (forall i, (i < n)%nat -> 0 < w i) -> (forall i, (n <= i < n + m)%nat -> w i = 0) ->
  (forall z, (n <= z < n + m)%nat -> nonresonant n mu w c Ps Po (/ mu z)) -> separable (n + m) mu w c Ps Po.
Proof. intros n m mu w c Ps Po H W Z NR. destruct (directions_spectral n m mu w c Ps Po H W Z NR) as [e [E _]]. exists e. exact E. Qed.
(** ... and this is needed: a scattering medium and an output direction for which the solver's matrix has no basis of eigenvectors at all. *)
Definition mu_bad (i : nat) : R := match i with O => 1 / 2 | _ => 1 end.
Definition w_bad (i : nat) : R := match i with O => 1 | _ => 0 end.
Theorem C45_separable_refuted : scatters 2 mu_bad w_bad (1 / 2) (fun _ _ => 1) (fun _ _ => 0) /\
  scatters 1 mu_bad w_bad (1 / 2) (fun _ _ => 1) (fun _ _ => 0) /\ separable 1 mu_bad w_bad (1 / 2) (fun _ _ => 1) (fun _ _ => 0) /\
  ~ separable 2 mu_bad w_bad (1 / 2) (fun _ _ => 1) (fun _ _ => 0).
Proof.
  assert (scatters 1 mu_bad w_bad (1 / 2) (fun _ _ => 1) (fun _ _ => 0)) as S1.
  { refine (conj _ (conj _ _)).
    - intros i Hi. assert (i = 0%nat) as -> by lia. cbn. lra.
    - intros. split; reflexivity.
    - intros i Hi _. unfold total. cbn. rewrite Rabs_R0, Rabs_R1, Rabs_right by lra. lra. }
  refine (conj _ (conj S1 (conj _ _))).
  - refine (conj _ (conj _ _)).
    + intros i Hi. destruct i as [|[|i]]; [cbn; lra|cbn; lra|lia].
    + intros. split; reflexivity.
    + intros i Hi _. unfold total. cbn. rewrite Rabs_R0, Rabs_R1, Rabs_right by lra. lra.
  - apply C45_separable; [exact S1|]. intros i Hi. assert (i = 0%nat) as -> by lia. cbn. lra.
  - intros [[lam V] [Inv E]]. cbn [fst snd] in *.
    assert (forall k, (k < 2)%nat -> V 0%nat k = 0) as Z.
    { intros k Hk. pose proof (E 0%nat k ltac:(lia) Hk) as A. pose proof (E 1%nat k ltac:(lia) Hk) as B. revert A B. unfold second_order, total, ident. cbn. intros A B.
      assert (V 0%nat k = lam k * V 0%nat k) as A' by lra. assert (- V 0%nat k + V 1%nat k = lam k * V 1%nat k) as B' by lra.
      destruct (Req_dec (lam k) 1) as [L|L]; [rewrite L in B'; lra|]. assert ((lam k - 1) * V 0%nat k = 0) as C by lra. apply Rmult_integral in C. destruct C; lra. }
    destruct Inv as [p [P _]]. pose proof (P 0%nat 0%nat ltac:(lia) ltac:(lia)) as Q. revert Q. unfold total, ident. cbn.
    rewrite (Z 0%nat), (Z 1%nat) by lia. lra.
Qed.

(** A layer whose streams all have weight: the operators are exactly those of the equation of transfer, for every scattering layer whose beam is not in
    resonance. *)
Theorem C45_layer_exact_weights : forall n solve eig dull solar thermal x lay, let c := factor x 1 * omega x in
  (0 < n)%nat -> solver n (solve n) -> (thermal = true -> solver (n + n) (solve (n + n)%nat)) -> eigensolver n eig ->
  (forall i, (i < n)%nat -> 0 < qw x i) -> scatters n (qx x) (qw x) c (P_pp x) (P_mp x) -> 0 <= ltau x ->
  (dull = true -> forall i j, (i < n)%nat -> (j < n)%nat -> P_pp x i j = 0 /\ P_mp x i j = 0 /\ Q_pm x i = 0 /\ Q_mm x i = 0) ->
  (solar = true -> as_0 x <> 0 /\ nonresonant n (qx x) (qw x) c (P_pp x) (P_mp x) (as_0 x) /\ atran x = exp (- as_0 x * ltau x)) ->
  (thermal = true -> ltau x <> 0) ->
  layer_of n solve eig dull solar thermal x = Done lay ->
  forall down1 up2 up1 down2, interacts n lay down1 up2 up1 down2 <->
    exists Ip Im, layer_light n solar thermal x Ip Im /\ ends n (ltau x) Ip Im down1 up2 up1 down2.
Proof.
  intros n solve eig dull solar thermal x lay c Pos S1 S2 ES W Sc LP Du So Th H. apply (C45_layer_exact n solve eig dull solar thermal x lay Pos S1 S2 ES); [|exact H].
  unfold layer_inputs. fold c. refine (conj Sc (conj LP (conj Du (conj _ (conj So Th))))). intros _. apply C45_separable; assumption.
Qed.

(** Two streams that are not symmetric, with different phase functions to each *)
Definition mu_two (i : nat) : R := match i with O => 1 / 4 | _ => 3 / 4 end.
Definition w_two (i : nat) : R := 1 / 2.
Definition P_two (i j : nat) : R := match i, j with O, O => 3 / 2 | O, _ => 1 | _, O => 1 | _, _ => 1 / 2 end.
Example C45_two : scatters 2 mu_two w_two (1 / 4) P_two (fun _ _ => 1 / 2) /\ (forall i, (i < 2)%nat -> 0 < w_two i) /\
  separable 2 mu_two w_two (1 / 4) P_two (fun _ _ => 1 / 2).
Proof.
  assert (forall i, (i < 2)%nat -> 0 < w_two i) as W by (intros; unfold w_two; lra).
  assert (scatters 2 mu_two w_two (1 / 4) P_two (fun _ _ => 1 / 2)) as Sc.
  { refine (conj _ (conj _ _)).
    - intros i Hi. destruct i as [|[|i]]; [| |lia]; cbn; unfold w_two; lra.
    - intros i j Hi Hj. destruct i as [|[|i]]; [| |lia]; (destruct j as [|[|j]]; [| |lia]); cbn; split; reflexivity.
    - intros i Hi _. unfold total, w_two. destruct i as [|[|i]]; [| |lia]; cbn; rewrite !Rabs_right by lra; lra. }
  refine (conj Sc (conj W _)). apply C45_separable; assumption.
Qed.
(** One stream with weight and one output direction: its cosine is not the inverse of the decay rate. *)
Example C45_direction : separable (1 + 1) mu_bad w_bad (1 / 4) (fun _ _ => 1) (fun _ _ => 0).
Proof.
  apply C45_separable_directions.
  - refine (conj _ (conj _ _)).
    + intros i Hi. destruct i as [|[|i]]; [cbn; lra|cbn; lra|lia].
    + intros. split; reflexivity.
    + intros i Hi _. unfold total. cbn. rewrite Rabs_R0, Rabs_R1, Rabs_right by lra. lra.
  - intros i Hi. assert (i = 0%nat) as -> by lia. cbn. lra.
  - intros i Hi. assert (i = 1%nat) as -> by lia. reflexivity.
  - intros z Hz. assert (z = 1%nat) as -> by lia. intros a b H. destruct (H 1 0%nat 0 ltac:(lia) ltac:(lra)) as (A & B).
    assert (forall v : R, derivable_pt_lim (fun t => v * exp (- / mu_bad 1 * t)) 0 (- v)) as E.
    { intros v. eapply dl_eq; [apply dl_scal; apply dl_exp; apply dl_scal; apply dl_id|]. rewrite Rmult_0_r, exp_0. cbn. field. }
    pose proof (uniqueness_limite _ _ _ _ A (E (a 0%nat))) as A'. pose proof (uniqueness_limite _ _ _ _ B (E (b 0%nat))) as B'.
    unfold scattered, total in A', B'. cbn in A', B'. rewrite Rmult_0_r, exp_0 in A', B'.
    intros i Hi. assert (i = 0%nat) as -> by lia. split; lra.
Qed.
Print Assumptions C45_separable.
Print Assumptions C45_eigenvalues_positive.
Print Assumptions C45_separable_directions.
Print Assumptions C45_separable_refuted.
Print Assumptions C45_layer_exact_weights.
