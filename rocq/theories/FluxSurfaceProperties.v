(** C52, continued: the flux that a Lambertian surface returns, and the reported fluxes of a whole atmosphere. *)
From Coq Require Import Reals Bool Arith Lia Lra List.
From Verif Require Import Base DerivsModel DerivsSpec DerivsProofs DerivsProperties DeltaMSpec DeltaMProofs AddingModel AddingSpec AddingMat AddingCalls AddingProperties
  RadianceModel RadianceSpec RadianceProperties EigModel EigSpec EigProperties AtmSpec AtmProperties FluxSpec FluxModel FluxProofs FluxOut FluxProperties.
From Verif Require BoundModel BoundSpec BoundProperties BrdfSpec BrdfModel BrdfProofs BrdfTheorems BrdfProperties.
Open Scope R_scope.

Lemma bound_total : forall n f, BoundSpec.total n f = total n f.
Proof. induction n as [|n IH]; intro f; cbn [BoundSpec.total total]; [reflexivity|]. rewrite IH. reflexivity. Qed.
Lemma factor_total : forall n qx qw, total n (fun i => qw i * qx i) <> 0 -> 2 * BrdfModel.quad_factor n qx qw * total n (fun i => qw i * qx i) = 1.
Proof.
  intros n qx qw Ne. unfold BrdfModel.quad_factor. rewrite BrdfProofs.sum_fold, Rplus_0_l, <- BrdfTheorems.upto_sum.
  assert (BrdfSpec.upto n (fun i => qx i * qw i) = total n (fun i => qw i * qx i)) as ->. { clear Ne. induction n as [|n IH]; cbn [BrdfSpec.upto total]; [reflexivity|]. rewrite IH. ring. }
  field. exact Ne.
Qed.

(** The surface as the handle has it: the reflection matrix, and the boundary input with the reflected beam and thermal emission *)
Definition leaves (n : nat) (thermal nf : bool) (qf mu_0 F b B : R) (Rs : mat) (R0 other : vec) (others : mat) : vec :=
  BoundModel.bottom_input {| BoundModel.nquad := n; BoundModel.numus := 0; BoundModel.nstokes := 1; BoundModel.sfi := false; BoundModel.solar := true; BoundModel.thermal := thermal;
      BoundModel.kernels := true; BoundModel.needs_fourier := nf |} 0 {| BoundModel.bqf := qf; BoundModel.bmu0 := mu_0; BoundModel.bF0 := F |}
    {| BoundModel.bF_top := 0; BoundModel.bF_bot := 0; BoundModel.bbtran := b; BoundModel.bRq0 := R0; BoundModel.bRu0 := other; BoundModel.bsurf := B; BoundModel.bRqq := Rs; BoundModel.bRuq := others |}.
(** Lambertian kernels: the flux upwards is the albedo times the flux downwards with the beam, and what the surface emits with the emissivity one minus the albedo. *)
Theorem C52_surface : forall qx qw nk kqx kqw n_derivs derivs es n old qx0 i_offset j_offset old0 thermal nf mu_0 F b B Rs R0 other others Ip Im,
  es <> nil -> Forall (fun e => BrdfModel.kind e = BrdfModel.Lambertian) es -> (forall k, (k < nk)%nat -> 0 <= kqx k <= PI) ->
  (forall i, (i < n)%nat -> 0 < qx i <= 1) -> 0 < qx0 j_offset <= 1 -> (forall i, (i < n)%nat -> 0 < qx0 (i_offset + i)%nat <= 1) -> total n (fun i => qw i * qx i) <> 0 ->
  (forall i j, (i < n)%nat -> (j < n)%nat -> BrdfModel.ref_mat nk kqx kqw 0 (BrdfModel.flag es) (BrdfModel.quad_factor n qx qw) qx qw 0
     (BrdfModel.kf (BrdfModel.build qx nk kqx BrdfModel.QQ n_derivs derivs es (BrdfModel.mat_cells 0 n 0 n) old)) i j 0 0 = Some (Rs i j)) ->
  (forall i, (i < n)%nat -> BrdfModel.ref_vec nk kqx kqw 0 (BrdfModel.flag es)
     (BrdfModel.kf (BrdfModel.build qx0 nk kqx BrdfModel.Q0 n_derivs derivs es (BrdfModel.vec_cells i_offset n j_offset) old0)) i 0 = Some (R0 i)) ->
  (forall i, (i < n)%nat -> Ip i = total n (fun j => Rs i j * Im j) + leaves n thermal nf (BrdfModel.quad_factor n qx qw) mu_0 F b B Rs R0 other others i) ->
  flux_of n qx qw Ip = BrdfProperties.albedo es * (flux_of n qx qw Im + mu_0 * (F * b)) + (if thermal then (1 - BrdfProperties.albedo es) * flux_of n qx qw (fun _ => B) else 0).
Proof.
  intros qx qw nk kqx kqw nd derivs es n old qx0 io jo old0 thermal nf mu_0 F b B Rs R0 other others Ip Im Ne La Hk Hq Hj Hi Hs ERs ER0 EI.
  set (A := BrdfProperties.albedo es). set (qf := BrdfModel.quad_factor n qx qw) in *. pose proof (factor_total n qx qw Hs) as QF. fold qf in QF. set (g := total n (fun i => qw i * qx i)) in *.
  assert (BrdfModel.solar_surface es 0 = true) as S0 by (destruct es; [contradiction|reflexivity]).
  assert (forall i j, (i < n)%nat -> (j < n)%nat -> Rs i j = A * (2 * qf * (qx j * qw j))) as VR.
  { intros i j Ni Nj. pose proof (BrdfProperties.C51_matrix qx qw nk kqx kqw BrdfModel.QQ nd derivs es _ 0 n 0 n old 0 qf i j 0 0 (BrdfProperties.describes_flat BrdfModel.QQ es La) S0 Hk Hq Hq Ni Nj) as E.
    rewrite (ERs i j Ni Nj) in E. injection E as ->. rewrite BrdfProperties.surface_flat. reflexivity. }
  assert (forall i, (i < n)%nat -> R0 i = A) as V0.
  { intros i Ni. pose proof (BrdfProperties.C51_vector qx0 nk kqx kqw BrdfModel.Q0 nd derivs es _ io n jo old0 0 i 0 (BrdfProperties.describes_flat BrdfModel.Q0 es La) S0 Hk Hj Hi Ni) as E.
    rewrite (ER0 i Ni) in E. injection E as ->. cbn [Nat.eqb]. apply BrdfProperties.surface_flat. }
  set (d := total n (fun j => qw j * (qx j * Im j))).
  assert (forall i, (i < n)%nat -> total n (fun j => Rs i j * Im j) = 2 * qf * A * d) as VD.
  { intros i Ni. unfold d. rewrite <- total_scale. apply total_ext. intros j Nj. rewrite (VR i j Ni Nj). ring. }
  assert (forall i, (i < n)%nat -> total n (fun j => Rs i j) = A) as VA.
  { intros i Ni. rewrite (total_ext n _ (fun j => 2 * qf * A * (qw j * qx j))) by (intros j Nj; rewrite (VR i j Ni Nj); ring). rewrite total_scale. fold g.
    transitivity (A * (2 * qf * g)); [ring|rewrite QF; ring]. }
  assert (forall i, (i < n)%nat -> leaves n thermal nf qf mu_0 F b B Rs R0 other others i = qf * mu_0 * F / PI * b * A + (if thermal then B * (1 - A) else 0)) as VB.
  { intros i Ni. unfold leaves.
    match goal with |- BoundModel.bottom_input ?c 0 ?k ?x i = _ =>
      destruct (BoundProperties.C41_boundary_exact c 0 k x i 0 ltac:(cbn; lia) ltac:(cbn; lia)) as [_ E] end.
    cbn [BoundModel.nstokes] in E. rewrite Nat.mul_1_r, Nat.add_0_r in E. rewrite E. unfold BoundSpec.leaving, BoundSpec.albedo, BoundSpec.reflected, BoundSpec.row, BoundModel.n_quad_x.
    cbn [BoundModel.solar BoundModel.thermal BoundModel.kernels BoundModel.needs_fourier BoundModel.sfi BoundModel.nquad BoundModel.numus BoundModel.nstokes BoundModel.bqf BoundModel.bmu0 BoundModel.bF0
      BoundModel.bF_bot BoundModel.bbtran BoundModel.bRq0 BoundModel.bRqq BoundModel.bsurf Nat.eqb andb orb].
    rewrite Nat.add_0_r, Nat.mul_1_r, Nat.add_0_r. destruct (Nat.ltb_spec i n); [|lia]. rewrite (V0 i Ni), bound_total.
    rewrite (total_ext n _ (fun j => Rs i j)) by (intros; rewrite Nat.mul_1_r; reflexivity). rewrite (VA i Ni). destruct thermal; cbn [andb]; ring. }
  unfold flux_of. fold d.
  rewrite (total_ext n _ (fun i => (2 * qf * A * d + (qf * mu_0 * F / PI * b * A + (if thermal then B * (1 - A) else 0))) * (qw i * qx i))) by (intros i Ni; rewrite (EI i Ni), (VD i Ni), (VB i Ni); ring).
  rewrite total_scale. fold g.
  rewrite (total_ext n (fun i => qw i * (qx i * B)) (fun i => B * (qw i * qx i))) by (intros; ring). rewrite total_scale. fold g.
  transitivity (2 * PI * (A * d) * (2 * qf * g) + mu_0 * F * b * A * (2 * qf * g) + (if thermal then 2 * PI * (B * (1 - A)) * g else 0)).
  - destruct thermal; field; exact pi_ne.
  - rewrite QF. destruct thermal; ring.
Qed.

(** The whole: layers of the eigenvalue solver above a surface, added both ways; output at the top and at the bottom.  The reported fluxes differ by what the layers absorb. *)
Theorem C52_column : forall n solve eig dulls thermal m xs ls Rs t b d first o ul ls_l Rs_l t_l b_l x x_l work r h mu_0 wm wd old,
  (0 < n)%nat -> solver n (solve n) -> (thermal = true -> solver (n + n) (solve (n + n)%nat)) -> eigensolver n eig ->
  layers_ok n m dulls true thermal xs -> surface_ok n (weights xs) Rs -> (forall k, (k <= m)%nat -> layer_of n solve eig (dulls k) true thermal (xs k) = Done (ls k)) ->
  l_layers d = S m -> l_solar d = true -> l_thermal d = thermal ->
  (thermal = true -> forall k j, (k < S m)%nat -> (j < l_derivs d)%nat -> ~ emission d k j) -> ends_only (S m) 2 ul ->
  layers_fair n m true thermal xs -> (forall k, (k <= m)%nat -> parallel mu_0 (xs k)) ->
  describes_streams h n (qx (xs 0%nat)) (qw (xs 0%nat)) -> n_layers h = S m -> n_ulevels h = 2%nat -> upwelling h = true -> downwelling h = true ->
  h_F_0 h = Some (flux0 (xs 0%nat)) -> h_mu_0 h = Some mu_0 -> h_btran h 0%nat = Some (btran (xs 0%nat)) -> h_btran h (S m) = Some (btran (xs m) * exp (- as_0 (xs m) * ltau (xs m))) ->
  exists r' Ip Im, both_ways n (solve n) (S m) (l_derivs d) 2 ul ls ls_l (v_down (build_set d first o)) (Some (Rs, Rs_l)) t b t_l b_l x x_l work r = Ok r' /\
    atmosphere n m true thermal xs Rs t b Ip Im /\
    let out := solution h wm true wd (I_p r') (I_m r') old in
    exists up0 down0 up1 down1, flux_p out 0 = Some up0 /\ flux_m out 0 = Some down0 /\ flux_p out 1 = Some up1 /\ flux_m out 1 = Some down1 /\
      forall H, integrals n m true thermal xs Ip Im H -> (down0 - up0) - (down1 - up1) = total (S m) (fun k => H k (ltau (xs k)) - H k 0).
Proof.
  intros n solve eig dulls thermal m xs ls Rs t b d first o ul ls_l Rs_l t_l b_l x x_l work r h mu_0 wm wd old Pos S1 S2 ES Ok Su Dn E1 E2 E3 Em En Fa Pa Ds NL NU Up Down HF HM HB0 HB1.
  destruct (C47_both_ways n solve eig dulls true thermal m xs ls Rs t b d first o 2 ul ls_l Rs_l t_l b_l x x_l work r Pos S1 S2 ES Ok Su Dn E1 E2 E3 (or_introl eq_refl) Em En) as (r' & Ip & Im & Bo & At & Hl).
  exists r', Ip, Im. refine (conj Bo (conj At _)). cbv zeta.
  destruct (C52_outputs h n _ _ wm true wd (I_p r') (I_m r') old 0 0 _ _ _ Ds ltac:(lia) HF HM HB0 (or_introl (conj eq_refl eq_refl))) as (_ & _ & A3 & A4).
  destruct (C52_outputs h n _ _ wm true wd (I_p r') (I_m r') old 1 (S m) _ _ _ Ds ltac:(lia) HF HM HB1 (or_intror (conj (Nat.neq_succ_0 0) (eq_sym NL)))) as (_ & _ & B3 & B4).
  do 4 eexists. refine (conj (A3 eq_refl Up) (conj (A4 eq_refl Down) (conj (B3 eq_refl Up) (conj (B4 eq_refl Down) _)))). intros H HI.
  rewrite <- (C52_parallel_budget n m true thermal xs mu_0 t Ip Im H m Fa (fun k Hk _ => Pa k Hk) (proj1 At) HI (le_n m)).
  destruct En as (Sm0 & [[C _]|(_ & U0 & U1)]); [discriminate|].
  destruct Fa as (Di & Go & _). destruct (Di m (le_n m)) as [X W].
  assert (flux0 (xs m) = flux0 (xs 0%nat)) as FF.
  { clear - Go. specialize (Go eq_refl). assert (forall k, (k <= m)%nat -> flux0 (xs k) = flux0 (xs 0%nat)) as G; [|apply G, le_n]. induction k as [|k IH]; intro Hk; [reflexivity|]. rewrite (proj2 (Go k Hk)). apply IH. lia. }
  unfold net. rewrite X, W. unfold beam_at. rewrite FF, Rmult_0_r, exp_0.
  assert (forall (f g : vec), (forall i, (i < n)%nat -> f i = g i) -> flux_of n (qx (xs 0%nat)) (qw (xs 0%nat)) f = flux_of n (qx (xs 0%nat)) (qw (xs 0%nat)) g) as Ext.
  { intros f g E. unfold flux_of. f_equal. apply total_ext. intros i Hi. rewrite (E i Hi). reflexivity. }
  rewrite (Ext (I_p r' 0%nat) (fun i => Ip 0%nat i 0)) by (intros i Hi; apply (Hl 0%nat i ltac:(lia) Hi); exact U0).
  rewrite (Ext (I_m r' 0%nat) (fun i => Im 0%nat i 0)) by (intros i Hi; apply (Hl 0%nat i ltac:(lia) Hi); exact U0).
  rewrite (Ext (I_p r' 1%nat) (fun i => Ip m i (ltau (xs m)))) by (intros i Hi; apply (Hl 1%nat i ltac:(lia) Hi); exact U1).
  rewrite (Ext (I_m r' 1%nat) (fun i => Im m i (ltau (xs m)))) by (intros i Hi; apply (Hl 1%nat i ltac:(lia) Hi); exact U1).
  ring.
Qed.

(** * Example: the two layers of C47 *)
Lemma sky_fair : layers_fair 1 1 true false (sky 0).
Proof.
  refine (conj _ (conj _ _)).
  - intros k _. unfold sky. destruct (Nat.eqb k 0); split; reflexivity.
  - intros _ k Hk. replace k with 0%nat by lia. unfold sky. cbn [Nat.eqb slab_of btran flux0 as_0 ltau]. split; [|reflexivity]. rewrite Rmult_1_l. reflexivity.
  - intros k Hk. assert (k = 0%nat \/ k = 1%nat) as [-> | ->] by lia; unfold sky; cbn [Nat.eqb]; (refine (conj (conj eq_refl (conj _ (conj _ (conj _ _)))) (conj _ _)));
      cbn [slab_of qx qw P_pp P_mp Q_pm Q_mm total ltau as_0]; intros; (lra || discriminate).
Qed.
Definition sky_handle : handle := {| n_quad := 1; n_stokes := 1; n_layers := 2; n_ulevels := 2; upwelling := true; downwelling := true; h_qx := fun _ => 1; h_qw := fun _ => 1;
  h_F_0 := Some 1; h_mu_0 := Some 1; h_btran := fun k => Some (if Nat.eqb k 0 then 1 else exp (- 1 * (1 + 0)) * exp (- (1) * 1)) |}.
Example C52_column_case : forall ls_l Rs_l t_l b_l x x_l work r old,
  exists r' Ip Im, both_ways 1 (solves 1) 2 1 2 (fun i => (2 * i)%nat) (sky_layers 0) ls_l (v_down (build_set lin_two true garbage_set)) (Some (ground, Rs_l)) zvec (fun _ => exp (- 1 * (1 + 0))) t_l b_l x x_l work r = Ok r' /\
    atmosphere 1 1 true false (sky 0) ground zvec (fun _ => exp (- 1 * (1 + 0))) Ip Im /\
    let out := solution sky_handle true true true (I_p r') (I_m r') old in
    exists up0 down0 up1 down1, flux_p out 0 = Some up0 /\ flux_m out 0 = Some down0 /\ flux_p out 1 = Some up1 /\ flux_m out 1 = Some down1 /\
      forall H, integrals 1 1 true false (sky 0) Ip Im H -> (down0 - up0) - (down1 - up1) = total 2 (fun k => H k (ltau (sky 0 k)) - H k 0).
Proof.
  intros ls_l Rs_l t_l b_l x x_l work r old.
  assert (ends_only 2 2 (fun i => (2 * i)%nat)) as En. { split; [lia|]. right. split; [reflexivity|]. split; reflexivity. }
  assert (surface_ok 1 (weights (sky 0)) ground) as Gr by (apply ground_ok; intros i; unfold weights, sky; cbn; lra).
  apply (C52_column 1 solves eig1 (fun _ => false) false 1 (sky 0) (sky_layers 0) ground zvec (fun _ => exp (- 1 * (1 + 0))) lin_two true garbage_set (fun i => (2 * i)%nat) ls_l Rs_l t_l b_l x x_l work r sky_handle 1 true true old);
    try reflexivity; try discriminate; [lia|exact solves_1|exact eig1_ok|apply sky_ok; lra|exact Gr|intros; apply sky_done|exact En|exact sky_fair| |].
  - intros k _. unfold parallel, sky. destruct (Nat.eqb k 0); cbn [slab_of as_0]; lra.
  - refine (conj eq_refl (conj (le_n 1) (conj _ _))); [intros i _; split; reflexivity|]. intros i A B. cbn [n_quad sky_handle] in A. lia.
Qed.
(** A surface of two Lambertian kernels, 1/8 and 1/4, and one stream: the matrix and the vector exist. *)
Definition flat_entry (a : R) : BrdfModel.entry :=
  {| BrdfModel.kind := BrdfModel.Lambertian; BrdfModel.ampfac := a; BrdfModel.ampfac_l := fun _ => 0; BrdfModel.params := fun _ => 0; BrdfModel.params_l := fun _ _ => 0 |}.
Definition flats : list BrdfModel.entry := flat_entry (1/8) :: flat_entry (1/4) :: nil.
Example C52_surface_case : let one := fun _ : nat => 1 in let derivs := fun _ : nat => false in
  exists Rs R0, flats <> nil /\ Forall (fun e => BrdfModel.kind e = BrdfModel.Lambertian) flats /\ total 1 (fun i => one i * one i) <> 0 /\
  (forall i j old, (i < 1)%nat -> (j < 1)%nat -> BrdfModel.ref_mat 1 (fun _ => 0) one 0 (BrdfModel.flag flats) (BrdfModel.quad_factor 1 one one) one one 0
     (BrdfModel.kf (BrdfModel.build one 1 (fun _ => 0) BrdfModel.QQ 0 derivs flats (BrdfModel.mat_cells 0 1 0 1) old)) i j 0 0 = Some (Rs i j)) /\
  (forall i old, (i < 1)%nat -> BrdfModel.ref_vec 1 (fun _ => 0) one 0 (BrdfModel.flag flats)
     (BrdfModel.kf (BrdfModel.build one 1 (fun _ => 0) BrdfModel.Q0 0 derivs flats (BrdfModel.vec_cells 0 1 1) old)) i 0 = Some (R0 i)) /\
  BrdfProperties.albedo flats = 3/8.
Proof.
  intros one derivs.
  assert (Forall (fun e => BrdfModel.kind e = BrdfModel.Lambertian) flats) as La by (repeat constructor).
  assert (forall k : nat, (k < 1)%nat -> 0 <= 0 <= PI) as Hk by (intros; pose proof PI_RGT_0; lra).
  assert (forall i, 0 < one i <= 1) as Hq by (intros; unfold one; lra).
  exists (fun _ _ => 3/8 * (2 * BrdfModel.quad_factor 1 one one * (1 * 1))), (fun _ => 3/8).
  assert (BrdfProperties.albedo flats = 3/8) as EA by (cbn; lra).
  refine (conj _ (conj La (conj _ (conj _ (conj _ EA))))); [discriminate|cbn; unfold one; lra| |].
  - intros i j old Ni Nj. rewrite <- EA, <- (BrdfProperties.surface_flat 1 (fun _ => 0) one (acos (one j)) (acos (one i)) flats).
    exact (BrdfProperties.C51_matrix one one 1 (fun _ => 0) one BrdfModel.QQ 0 derivs flats _ 0 1 0 1 old 0 (BrdfModel.quad_factor 1 one one) i j 0 0 (BrdfProperties.describes_flat BrdfModel.QQ flats La) eq_refl Hk
      (fun i _ => Hq i) (fun i _ => Hq i) Ni Nj).
  - intros i old Ni. rewrite <- EA, <- (BrdfProperties.surface_flat 1 (fun _ => 0) one (acos (one 1%nat)) (acos (one (0 + i)%nat)) flats).
    exact (BrdfProperties.C51_vector one 1 (fun _ => 0) one BrdfModel.Q0 0 derivs flats _ 0 1 1 old 0 i 0 (BrdfProperties.describes_flat BrdfModel.Q0 flats La) eq_refl Hk (Hq _) (fun i _ => Hq _) Ni).
Qed.

Print Assumptions C52_surface.
Print Assumptions C52_column.
