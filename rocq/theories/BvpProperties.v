(** C48: the radiances of the boundary value solver are those of the equation of transfer, at every level and inside the layers. *)
From Coq Require Import Reals Bool Arith ZArith List Lia Lra.
From Verif Require Import Base Dbl DerivsModel DerivsSpec DerivsProofs DerivsProperties DeltaMSpec DeltaMProofs AddingModel AddingSpec AddingMat RadianceModel RadianceSpec RadianceProperties
  EigModel EigSpec EigMat EigCore EigProofs EigEnergy EigLayer EigProperties EigDProperties AtmSpec AtmProofs AtmLight AtmProperties BvpModel BvpSpec BvpProofs BvpLight GaussProofs.
Open Scope R_scope.

(** What is required of the external routines *)
Definition routines (n m : nat) (thermal : bool) solve eig (gb : nat -> nat -> nat -> mat -> option (vec -> vec)) : Prop :=
  solver n (solve n) /\ (thermal = true -> solver (n + n) (solve (n + n)%nat)) /\ eigensolver n eig /\ band_solver (n_comp n m) (n_diags n) (n_diags n) (gb (n_comp n m) (n_diags n) (n_diags n)).
(** ... and of the atmosphere: no layer is exempt from the conditions of C45, the albedo of a layer may be zero. *)
Definition sound (n m : nat) (solar thermal : bool) (xs : nat -> slab) (surf : option mat) : Prop :=
  layers_ok n m bright solar thermal xs /\ surface_ok n (weights xs) (reflector surf).

(** The light is unique. *)
Theorem C48_light_unique : forall n m solve eig gb solar thermal xs surf top bot, (0 < n)%nat -> routines n m thermal solve eig gb -> sound n m solar thermal xs surf ->
  forall Ip Im Ip' Im', atmosphere n m solar thermal xs (reflector surf) top bot Ip Im -> atmosphere n m solar thermal xs (reflector surf) top bot Ip' Im' -> same_light n m xs Ip Im Ip' Im'.
Proof. intros n m solve eig gb solar thermal xs surf top bot Pos (S1 & S2 & ES & _) (Ok & Su) Ip Im Ip' Im'. eapply (bv_same n solve eig Pos S1 ES solar thermal S2 m xs Ok); eassumption. Qed.

Lemma two_sums : forall n F f g, (forall k, (k < n)%nat -> F k = f k + g k) -> total n F = total n f + total n g.
Proof. intros n F f g H. rewrite <- total_plus. apply total_ext. exact H. Qed.
Lemma two_sums_neg : forall n F f g, (forall k, (k < n)%nat -> F k = - f k - g k) -> total n F = - total n f - total n g.
Proof.
  intros n F f g H. replace (- total n f - total n g) with (-1 * (total n f + total n g)) by ring. rewrite <- total_plus, <- total_scale. apply total_ext. intros k Hk. rewrite H by exact Hk. ring.
Qed.
Lemma level_light : forall n solve eig solar thermal m xs B ul, layers_ok n m bright solar thermal xs -> (ul <= S m)%nat ->
  exists u d, level n m (fun k => waves_of n solve eig (xs k)) solar thermal B ul = Ok (u, d) /\ forall i, (i < n)%nat ->
    ((ul <= m)%nat -> u i = light_p n solve (fun _ => eig) solar thermal xs B ul i 0 /\ d i = light_m n solve (fun _ => eig) solar thermal xs B ul i 0) /\
    (ul = S m -> u i = light_p n solve (fun _ => eig) solar thermal xs B m i (ltau (xs m)) /\ d i = light_m n solve (fun _ => eig) solar thermal xs B m i (ltau (xs m))).
Proof.
  intros n solve eig solar thermal m xs B ul Ok Hu. unfold level. replace (S m <? ul)%nat with false by (symmetry; apply Nat.ltb_ge; exact Hu).
  assert (forall p k, (p * (n * 2) + k)%nat = (2 * p * n + k)%nat /\ (2 * p * n + k + n)%nat = ((2 * p + 1) * n + k)%nat) as IX by (intros; split; ring).
  destruct (Nat.eqb_spec ul (S m)) as [->|NE]; cbn [negb].
  - eexists. eexists. split; [reflexivity|]. intros i Hi. split; [lia|]. intros _.
    rewrite (end_pL n solve (fun _ => eig) solar thermal m xs Ok B m i (le_n m)), (end_mL n solve (fun _ => eig) solar thermal m xs Ok B m i (le_n m)).
    unfold UpL, DnL, P1p, P1m, mv. split; rewrite Rplus_assoc; f_equal.
    + apply two_sums. intros k Hk. unfold part. destruct (IX m k) as (-> & ->). ring.
    + apply two_sums_neg. intros k Hk. unfold part. destruct (IX m k) as (-> & ->). ring.
  - eexists. eexists. split; [reflexivity|]. intros i Hi. split; [|lia]. intros Hm.
    rewrite end_p0, end_m0. unfold Up0, Dn0, P0p, P0m, mv. split; rewrite Rplus_assoc; f_equal.
    + apply two_sums. intros k Hk. unfold part. destruct (IX ul k) as (-> & ->). ring.
    + apply two_sums_neg. intros k Hk. unfold part. destruct (IX ul k) as (-> & ->). ring.
Qed.
(** At the levels: the light exists, and every output level holds it, whatever levels are asked for.  Where two layers meet it is the light at the bottom of
    the upper and at the top of the lower one. *)
Theorem C48_levels : forall n m solve eig gb solar thermal xs surf top bot, (0 < n)%nat -> routines n m thermal solve eig gb -> sound n m solar thermal xs surf ->
  exists Ip Im, atmosphere n m solar thermal xs (reflector surf) top bot Ip Im /\
    forall ul, (ul <= S m)%nat -> exists u d, bvp_level n solve eig gb m xs surf solar thermal top bot ul = Ok (u, d) /\ forall i, (i < n)%nat ->
      ((ul <= m)%nat -> u i = Ip ul i 0 /\ d i = Im ul i 0) /\ (forall k, ul = S k -> u i = Ip k i (ltau (xs k)) /\ d i = Im k i (ltau (xs k))).
Proof.
  intros n m solve eig gb solar thermal xs surf top bot Pos (S1 & S2 & ES & Bd) (Ok & Su).
  assert (forall k, (k <= m)%nat -> eigensystem n (gam n (xs k)) (eig (gam n (xs k)))) as Es.
  { intros k Hk. destruct (Ok k Hk) as ((Sc & _ & _ & Sep & _) & _). exact (eig_ok n eig (xs k) ES Sc (Sep eq_refl)). }
  destruct (system_solved n solve eig Pos S1 ES (fun _ => eig) solar thermal S2 m xs Ok Es surf Su gb Bd top bot) as (B & EB & At).
  exists (light_p n solve (fun _ => eig) solar thermal xs B), (light_m n solve (fun _ => eig) solar thermal xs B). split; [exact At|]. intros ul Hu.
  destruct (level_light n solve eig solar thermal m xs B ul Ok Hu) as (u & d & E & H). exists u, d. split.
  - unfold bvp_level. cbv beta in EB. rewrite EB. exact E.
  - intros i Hi. destruct (H i Hi) as (H1 & H2). split; [exact H1|]. intros k ->. destruct (Nat.eq_dec k m) as [->|NE]; [exact (H2 eq_refl)|].
    destruct (H1 ltac:(lia)) as (-> & ->). destruct At as ((_ & J & _) & _). destruct (J k i ltac:(lia) Hi) as (-> & ->). split; reflexivity.
Qed.
(** Inside the layers, without thermal emission: output at any depth of any layer *)
Lemma hom_p_is : forall n eig x al be i s, hom_p n eig x al be i s =
  total n (fun k => X_p n eig x i k * (exp (- nu n eig x k * s) * al k)) + total n (fun k => X_m n eig x i k * (exp (- nu n eig x k * (ltau x - s)) * be k)).
Proof. reflexivity. Qed.
Lemma hom_m_is : forall n eig x al be i s, hom_m n eig x al be i s =
  - total n (fun k => X_m n eig x i k * (exp (- nu n eig x k * s) * al k)) - total n (fun k => X_p n eig x i k * (exp (- nu n eig x k * (ltau x - s)) * be k)).
Proof. reflexivity. Qed.
Lemma depth_light : forall n solve eig (solar thermal : bool) m xs B ul s, (ul <= m)%nat ->
  exists u d, depth n m (fun k => waves_of n solve eig (xs k)) solar B ul s = Ok (u, d) /\ forall i, (i < n)%nat ->
    u i + (if thermal then lin_p n solve (xs ul) i s else 0) = light_p n solve (fun _ => eig) solar thermal xs B ul i s /\
    d i + (if thermal then lin_m n solve (xs ul) i s else 0) = light_m n solve (fun _ => eig) solar thermal xs B ul i s.
Proof.
  intros n solve eig solar thermal m xs B ul s Hu. unfold depth. replace (m <? ul)%nat with false by (symmetry; apply Nat.ltb_ge; exact Hu).
  assert (forall p k, (p * (n * 2) + k)%nat = (2 * p * n + k)%nat /\ (2 * p * n + k + n)%nat = ((2 * p + 1) * n + k)%nat) as IX by (intros; split; ring).
  eexists. eexists. split; [reflexivity|]. intros i Hi. unfold light_p, light_m. rewrite hom_p_is, hom_m_is. unfold part_p, part_m.
  cbn [waves_of b_nu b_Xp b_Xm b_Fp b_Fm b_as0 b_ltau]. unfold vscale. replace (- s * as_0 (xs ul)) with (- as_0 (xs ul) * s) by ring. split.
  - rewrite <- Rplus_assoc. f_equal. f_equal.
    + apply two_sums. intros k Hk. unfold part. destruct (IX ul k) as (-> & ->). rewrite (Rminus_0_r s). ring.
    + case solar; ring.
  - rewrite <- Rplus_assoc. f_equal. f_equal.
    + apply two_sums_neg. intros k Hk. unfold part. destruct (IX ul k) as (-> & ->). rewrite (Rminus_0_r s). ring.
    + case solar; ring.
Qed.
Theorem C48_depths : forall n m solve eig gb solar xs surf top bot, (0 < n)%nat -> routines n m false solve eig gb -> sound n m solar false xs surf ->
  exists Ip Im, atmosphere n m solar false xs (reflector surf) top bot Ip Im /\
    forall ul s, (ul <= m)%nat -> exists u d, bvp_depth n solve eig gb m xs surf solar false top bot ul s = Ok (u, d) /\ forall i, (i < n)%nat -> u i = Ip ul i s /\ d i = Im ul i s.
Proof.
  intros n m solve eig gb solar xs surf top bot Pos (S1 & S2 & ES & Bd) (Ok & Su).
  assert (forall k, (k <= m)%nat -> eigensystem n (gam n (xs k)) (eig (gam n (xs k)))) as Es.
  { intros k Hk. destruct (Ok k Hk) as ((Sc & _ & _ & Sep & _) & _). exact (eig_ok n eig (xs k) ES Sc (Sep eq_refl)). }
  destruct (system_solved n solve eig Pos S1 ES (fun _ => eig) solar false S2 m xs Ok Es surf Su gb Bd top bot) as (B & EB & At).
  exists (light_p n solve (fun _ => eig) solar false xs B), (light_m n solve (fun _ => eig) solar false xs B). split; [exact At|]. intros ul s Hu.
  destruct (depth_light n solve eig solar false m xs B ul s Hu) as (u & d & E & H). exists u, d. split.
  - unfold bvp_depth. cbv beta in EB. rewrite EB. exact E.
  - intros i Hi. destruct (H i Hi) as (<- & <-). split; ring.
Qed.
(** The levels can also be asked for as optical depths: both give the same radiances. *)
Theorem C48_depths_are_levels : forall n m solve eig gb solar xs surf top bot, (0 < n)%nat -> routines n m false solve eig gb -> sound n m solar false xs surf ->
  forall ul, (ul <= m)%nat -> exists u d u' d' u2 d2 u3 d3,
    bvp_depth n solve eig gb m xs surf solar false top bot ul 0 = Ok (u, d) /\ bvp_level n solve eig gb m xs surf solar false top bot ul = Ok (u', d') /\
    bvp_depth n solve eig gb m xs surf solar false top bot ul (ltau (xs ul)) = Ok (u2, d2) /\ bvp_level n solve eig gb m xs surf solar false top bot (S ul) = Ok (u3, d3) /\
    forall i, (i < n)%nat -> u i = u' i /\ d i = d' i /\ u2 i = u3 i /\ d2 i = d3 i.
Proof.
  intros n m solve eig gb solar xs surf top bot Pos Ro So ul Hu.
  destruct (C48_levels n m solve eig gb solar false xs surf top bot Pos Ro So) as (Ip & Im & A & L). destruct (C48_depths n m solve eig gb solar xs surf top bot Pos Ro So) as (Jp & Jm & A' & D).
  pose proof (C48_light_unique n m solve eig gb solar false xs surf top bot Pos Ro So _ _ _ _ A' A) as Un.
  assert (0 <= ltau (xs ul)) as LP by (destruct (proj1 So ul Hu) as ((_ & LP & _) & _); exact LP).
  destruct (D ul 0 Hu) as (u & d & E1 & H1). destruct (L ul ltac:(lia)) as (u' & d' & E2 & H2). destruct (D ul (ltau (xs ul)) Hu) as (u2 & d2 & E3 & H3). destruct (L (S ul) ltac:(lia)) as (u3 & d3 & E4 & H4).
  exists u, d, u', d', u2, d2, u3, d3. refine (conj E1 (conj E2 (conj E3 (conj E4 _)))). intros i Hi.
  destruct (H1 i Hi) as (-> & ->), (proj1 (H2 i Hi) Hu) as (-> & ->), (H3 i Hi) as (-> & ->), (proj2 (H4 i Hi) ul eq_refl) as (-> & ->).
  destruct (Un ul i 0 Hu Hi ltac:(lra)) as (-> & ->), (Un ul i (ltau (xs ul)) Hu Hi ltac:(lra)) as (-> & ->). refine (conj eq_refl (conj eq_refl (conj eq_refl eq_refl))).
Qed.
(** With thermal emission output at optical depths is wrong: it lacks what the emission adds to the light. *)
Definition warm : slab := {| qx := fun _ => 1; qw := fun _ => 1; zeroth := true; flux0 := 1; omega := 1/2; ltau := 1; as_0 := 1; atran := exp (- 1 * 1); btran := 1;
  planck0 := 1; planck1 := 1; P_pp := fun _ _ => 1; P_mp := fun _ _ => 0; Q_mm := fun _ => 1; Q_pm := fun _ => 1 |}.
Definition warm_solve (n : nat) := gauss_rows n.
Lemma warm_inputs : layer_inputs 1 false false true warm.
Proof.
  unfold layer_inputs. refine (conj _ (conj _ (conj _ (conj _ (conj _ _))))).
  - refine (conj _ (conj _ _)).
    + intros i Hi. cbn. lra.
    + intros i j Hi Hj. cbn. split; reflexivity.
    + intros i Hi _. unfold total, factor. cbn. rewrite Rabs_R1, Rabs_R0, Rabs_right by lra. lra.
  - cbn. lra.
  - discriminate.
  - intros _. exists (eig1 (second_order 1 (qx warm) (qw warm) (factor warm 1 * omega warm) (P_pp warm) (P_mp warm))). apply eig1_system.
  - discriminate.
  - intros _. cbn. lra.
Qed.
Lemma warm_routines : routines 1 0 true warm_solve eig1 gauss_band.
Proof. refine (conj (gauss_solver 1) (conj (fun _ => gauss_solver 2) (conj eig1_ok (gauss_band_solver _ _ _)))). Qed.
Lemma warm_sound : sound 1 0 false true (fun _ => warm) None.
Proof.
  split; [intros k Hk; exact (conj warm_inputs (conj eq_refl eq_refl))|]. intros v. unfold power, weights, reflector, total, zmat. cbn.
 nra.
Qed.
Theorem C48_depths_thermal_refuted : exists n m solve eig gb solar xs surf top bot, (0 < n)%nat /\ routines n m true solve eig gb /\ sound n m solar true xs surf /\
  exists u d ul i s, (ul <= m)%nat /\ (i < n)%nat /\ 0 <= s <= ltau (xs ul) /\ bvp_depth n solve eig gb m xs surf solar true top bot ul s = Ok (u, d) /\
    forall Ip Im, atmosphere n m solar true xs (reflector surf) top bot Ip Im -> u i <> Ip ul i s.
Proof.
  exists 1%nat, 0%nat, warm_solve, eig1, gauss_band, false, (fun _ => warm), None, zvec, zvec. refine (conj Nat.lt_0_1 (conj warm_routines (conj warm_sound _))).
  pose proof warm_routines as (S1 & S2 & ES & Bd). pose proof warm_sound as (Ok & Su).
  assert (forall k, (k <= 0)%nat -> eigensystem 1 (gam 1 warm) (eig1 (gam 1 warm))) as Es by (intros k Hk; apply eig1_system).
  destruct (system_solved 1 warm_solve eig1 ltac:(lia) S1 ES (fun _ => eig1) false true S2 0 (fun _ => warm) Ok Es None Su gauss_band Bd zvec zvec) as (B & EB & At).
  destruct (depth_light 1 warm_solve eig1 false true 0 (fun _ => warm) B 0 0 (le_n 0)) as (u & d & E & H). exists u, d, 0%nat, 0%nat, 0.
  refine (conj (le_n 0) (conj (le_n 1) (conj _ (conj _ _)))); [cbn; lra| |].
  - unfold bvp_depth. cbv beta in EB. rewrite EB. exact E.
  - intros Ip Im A Eq. destruct (H 0%nat (le_n 1)) as (H1 & _). cbn [negb] in H1.
    destruct (C48_light_unique 1 0 warm_solve eig1 gauss_band false true (fun _ => warm) None zvec zvec ltac:(lia) warm_routines warm_sound _ _ _ _ A At 0%nat 0%nat 0 (le_n 0) (le_n 1) ltac:(cbn; lra)) as (Q & _).
    rewrite <- Q, <- Eq in H1. clear Q Eq A At EB E H.
    assert (lin_p 1 warm_solve warm 0%nat 0 = 0) as Z by lra. unfold lin_p in Z. rewrite Rmult_0_l, Rplus_0_r in Z. unfold upper in Z.
    assert (forall k, (k < 1)%nat -> 0 < evals 1 eig1 warm k) as Ev by (apply (evals_pos 1 eig1 warm (proj1 warm_inputs)); apply eig1_system).
    assert (forall i, (i < 1)%nat -> qx warm i <> 0) as Q by (intros i _; cbn; lra).
    pose proof (a0_eq 1 warm_solve eig1 warm (le_n 1) Q (eig1_system _) Ev (gauss_solver 2) 0%nat ltac:(lia)) as A0.
    pose proof (a1_eq 1 warm_solve eig1 warm (le_n 1) Q (eig1_system _) Ev (gauss_solver 2) 0%nat ltac:(lia)) as A1.
    rewrite (wide_up 1 warm (le_n 1)) in A0, A1 by lia. unfold mv, signed, slope, local_t, local_r, local_mat, scaled, mul_diag, diag_mul, inv_qx, factor, upper, total in A0, A1.
    set (v0 := ther_a0 1 warm_solve warm) in *. set (v1 := ther_a1 1 warm_solve warm) in *. clearbody v0 v1. cbn in A0, A1. rewrite Z in A0. lra.
Qed.
(** The same radiances as those of adding and doubling layers (C47) *)
Theorem C48_agrees_with_adding : forall n m solve eig gb solar thermal xs ls Rs top bot dc first o nu ul ls_l Rs_l t_l b_l x x_l work r, (0 < n)%nat ->
  routines n m thermal solve eig gb -> sound n m solar thermal xs (Some Rs) -> (forall k, (k <= m)%nat -> layer_of n solve eig false solar thermal (xs k) = Done (ls k)) ->
  l_layers dc = S m -> l_solar dc = solar -> l_thermal dc = thermal -> solar = true \/ thermal = true ->
  (thermal = true -> forall k j, (k < S m)%nat -> (j < l_derivs dc)%nat -> ~ emission dc k j) -> ends_only (S m) nu ul ->
  exists r', both_ways n (solve n) (S m) (l_derivs dc) nu ul ls ls_l (v_down (build_set dc first o)) (Some (Rs, Rs_l)) top bot t_l b_l x x_l work r = Ok r' /\
    forall i q, (i < nu)%nat -> (q < n)%nat -> exists u d, bvp_level n solve eig gb m xs (Some Rs) solar thermal top bot (ul i) = Ok (u, d) /\ I_p r' i q = u q /\ I_m r' i q = d q.
Proof.
  intros n m solve eig gb solar thermal xs ls Rs top bot dc first o nu ul ls_l Rs_l t_l b_l x x_l work r Pos Ro So Dn E1 E2 E3 ST Em En.
  destruct (C48_levels n m solve eig gb solar thermal xs (Some Rs) top bot Pos Ro So) as (Ip & Im & A & L).
  pose proof Ro as (S1 & S2 & ES & _). pose proof So as (Ok & Su).
  destruct (C47_both_ways n solve eig bright solar thermal m xs ls Rs top bot dc first o nu ul ls_l Rs_l t_l b_l x x_l work r Pos S1 S2 ES Ok Su Dn E1 E2 E3 ST Em En) as (r' & Jp & Jm & Bw & A' & Ho).
  exists r'. split; [exact Bw|]. intros i q Hi Hq.
  pose proof (C48_light_unique n m solve eig gb solar thermal xs (Some Rs) top bot Pos Ro So _ _ _ _ A' A) as Un.
  assert (0 <= ltau (xs m)) as LP by (destruct (Ok m (le_n m)) as ((_ & LP & _) & _); exact LP).
  assert (0 <= ltau (xs 0%nat)) as LP0 by (destruct (Ok 0%nat ltac:(lia)) as ((_ & LP0 & _) & _); exact LP0).
  assert (ul i = 0%nat \/ ul i = S m) as U. { destruct En as (_ & [(-> & [U|U])|(-> & U & U')]); [assert (i = 0%nat) as -> by lia; left; exact U|assert (i = 0%nat) as -> by lia; right; exact U|]. destruct i as [|[|i]]; [left; exact U|right; exact U'|lia]. }
  destruct (Ho i q Hi Hq) as (H0 & Hm).
  destruct (L (ul i) ltac:(destruct U as [ -> | -> ]; lia)) as (u & d & E & H). exists u, d. split; [exact E|]. destruct (H q Hq) as (K0 & Km).
  destruct U as [U|U].
  - destruct (H0 U) as (-> & ->). rewrite U in K0. destruct (K0 ltac:(lia)) as (-> & ->). apply Un; [lia|exact Hq|lra].
  - destruct (Hm U) as (-> & ->). destruct (Km m U) as (-> & ->). apply Un; [lia|exact Hq|lra].
Qed.
(** Whatever the inputs, the band array is not overrun, and the only failure is the one the factorisation reports. *)
Theorem C48_inside_the_array : forall n m solve eig gb solar thermal xs surf top bot, (0 < n)%nat ->
  (forall ul, (ul <= S m)%nat -> (exists u d, bvp_level n solve eig gb m xs surf solar thermal top bot ul = Ok (u, d)) \/
    (bvp_level n solve eig gb m xs surf solar thermal top bot ul = Err 1%Z /\ exists a, gb (n_comp n m) (n_diags n) (n_diags n) a = None)) /\
  (forall ul s, (ul <= m)%nat -> (exists u d, bvp_depth n solve eig gb m xs surf solar thermal top bot ul s = Ok (u, d)) \/
    (bvp_depth n solve eig gb m xs surf solar thermal top bot ul s = Err 1%Z /\ exists a, gb (n_comp n m) (n_diags n) (n_diags n) a = None)).
Proof.
  intros n m solve eig gb solar thermal xs surf top bot Pos.
  destruct (assembled n Pos m (fun k => waves_of n solve eig (xs k)) surf) as (a & E & _).
  unfold bvp_level, bvp_depth, solve_bvp. rewrite E. unfold bind.
  destruct (gb (n_comp n m) (n_diags n) (n_diags n) a) as [f|] eqn:G.
  - split.
    + intros ul Hu. left. unfold level. replace (S m <? ul)%nat with false by (symmetry; apply Nat.ltb_ge; exact Hu). destruct (negb _); eexists; eexists; reflexivity.
    + intros ul s Hu. left. unfold depth. replace (m <? ul)%nat with false by (symmetry; apply Nat.ltb_ge; exact Hu). eexists. eexists. reflexivity.
  - split; intros; right; (split; [reflexivity|exists a; exact G]).
Qed.

(** Two layers above a surface, with the beam *)
Lemma sky_routines : routines 1 1 false warm_solve eig1 gauss_band.
Proof. refine (conj (gauss_solver 1) (conj _ (conj eig1_ok (gauss_band_solver _ _ _)))). discriminate. Qed.
Lemma sky_is_sound : forall s, - 1 <= s -> sound 1 1 true false (sky s) (Some ground).
Proof. intros s Hs. split; [exact (sky_ok s Hs)|]. apply ground_ok. intros i. unfold weights, sky. cbn. lra. Qed.
Example C48_two_layers : exists Ip Im, atmosphere 1 1 true false (sky 0) ground zvec (fun _ => exp (- 2)) Ip Im /\
  exists u d, bvp_level 1 warm_solve eig1 gauss_band 1 (sky 0) (Some ground) true false zvec (fun _ => exp (- 2)) 1 = Ok (u, d) /\
    u 0%nat = Ip 0%nat 0%nat (ltau (sky 0 0%nat)) /\ u 0%nat = Ip 1%nat 0%nat 0 /\ d 0%nat = Im 1%nat 0%nat 0.
Proof.
  destruct (C48_levels 1 1 warm_solve eig1 gauss_band true false (sky 0) (Some ground) zvec (fun _ => exp (- 2)) (le_n 1) sky_routines (sky_is_sound 0 ltac:(lra))) as (Ip & Im & A & H).
  exists Ip, Im. split; [exact A|]. destruct (H 1%nat ltac:(lia)) as (u & d & E & K). exists u, d. split; [exact E|]. destruct (K 0%nat ltac:(lia)) as (K1 & K2).
  destruct (K1 ltac:(lia)) as (Q1 & Q2). destruct (K2 0%nat eq_refl) as (Q3 & _). exact (conj Q3 (conj Q1 Q2)).
Qed.

Print Assumptions C48_light_unique.
Print Assumptions C48_levels.
Print Assumptions C48_depths.
Print Assumptions C48_depths_are_levels.
Print Assumptions C48_depths_thermal_refuted.
Print Assumptions C48_agrees_with_adding.
Print Assumptions C48_inside_the_array.
