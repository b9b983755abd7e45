(** Closed form of every getter: acceptance condition, cells read, result. *)
From Coq Require Import ZArith NArith List Bool Lia SpecFloat.
From Verif Require Import Base OptionsModel OptionsSpec OptionsProofs Dbl HandleModel HandleTable HandleWp
  HandleSetters HandleInv HandleSteps.
Import ListNotations.
Open Scope Z_scope.

Definition is_getter (o : op) : bool :=
  match o with
  | GetDoub | GetPade | GetSos | GetFourierTol | GetLambda | GetPlanetR | GetLevelsZ | GetOutLevels
  | GetOutTaus | GetOutThetas | GetFIsoTop | GetFIsoTopL _ | GetFIsoBot | GetFIsoBotL _ | GetF0
  | GetTheta0 | GetPhi0 | GetLevelsB | GetLevelsBL _ | GetSurfaceB | GetSurfaceBL _ | GetG _
  | GetNCoef _ | GetCoef _ _ _ | GetCoefL _ _ _ _ | GetOmega _ | GetOmegaL _ _ | GetLtau _
  | GetLtauL _ _ | GetKAmp _ | GetKPar _ _ | GetKAmpL _ _ | GetKParL _ _ _
  | GetOptions | GetSolvers | GetMaxCoef | GetNQuad | GetNStokes | GetNElem | GetNDerivs
  | GetNLayers | GetNKernels | GetNKernelQuad | GetKernel _ | GetNOutLevels
  | GetNOutThetas | GetNOutThetas2 | GetQx => true
  | _ => false
  end.

(** A set flag lets the getter through. *)
Definition flagged (h : handle) (f : loc) : bool :=
  negb (iib h) || match h_mem h f with Some (VZ z) => negb (z =? 0) | _ => false end.

Definition gaccept (h : handle) (g : op) : bool :=
  let c := h_cfg h in
  let nl := c_n_layers c in let nd := c_n_derivs c in let nk := c_n_kernels c in
  let thm := has_opt c OPT_SOURCE_THERMAL in let slr := has_opt c OPT_SOURCE_SOLAR in
  let uc := has_slv c SOLVERS_USE_COEF in
  let kz := negb (nk =? 0) in
  let np i := kernel_n_params (xz (c_kernels c) i) in
  match g with
  | GetDoub => andl [has_slv c SOLVERS_DOUBLING; flagged h FlDoub]
  | GetPade => andl [has_slv c SOLVER_PADE_ADD; flagged h FlPade]
  | GetSos => andl [has_slv c SOLVER_SOS; flagged h FlSos]
  | GetFourierTol => andl [flagged h FlFourierTol]
  | GetLambda => andl [thm; flagged h FlLambda]
  | GetPlanetR => andl [has_opt c OPT_PSA; flagged h FlPlanetR]
  | GetLevelsZ => andl [has_opt c OPT_PSA; flagged h FlLevelsZ]
  | GetOutLevels => andl [has_opt c OPT_OUTPUT_AT_LEVELS; flagged h FlUlevels]
  | GetOutTaus => andl [has_opt c OPT_OUTPUT_AT_TAUS; flagged h FlUtaus]
  | GetOutThetas => andl [negb (c_n_umus c =? 0); flagged h FlUmus]
  | GetFIsoTop => andl [flagged h FlFIsoTop]
  | GetFIsoBot => andl [flagged h FlFIsoBot]
  | GetFIsoTopL i | GetFIsoBotL i => andl [in_range i nd]
  | GetF0 => andl [slr; flagged h FlF0]
  | GetTheta0 => andl [slr; flagged h FlMu0]
  | GetPhi0 => andl [flagged h FlPhi0]
  | GetLevelsB => andl [thm; flagged h FlLevelsB]
  | GetLevelsBL j | GetSurfaceBL j => andl [thm; in_range j nd]
  | GetSurfaceB => andl [thm; flagged h FlSurfaceB]
  | GetG _ => false
  | GetNCoef i => andl [uc; flagged h (FlCoef i); in_range i nl]
  | GetCoef i j k => andl [uc; flagged h (FlCoef i); in_range i nl; in_range j (c_n_elem c);
                           in_range k (ncl h i)]
  | GetCoefL i d j k => andl [uc; in_range i nl; in_range d nd; in_range j (c_n_elem c);
                              in_range k (ncl h i)]
  | GetOmega i => andl [flagged h (FlOmega i); in_range i nl]
  | GetLtau i => andl [flagged h (FlLtau i); in_range i nl]
  | GetOmegaL i j | GetLtauL i j => andl [in_range i nl; in_range j nd]
  | GetKAmp i => andl [kz; flagged h (FlKAmp i); in_range i nk]
  | GetKPar i j => andl [kz; flagged h (FlKPar i j); in_range i nk; in_range j (np i)]
  | GetKAmpL i d => andl [kz; in_range i nk; in_range d nd]
  | GetKParL i d p => andl [kz; in_range i nk; in_range d nd; in_range p (np i)]
  | GetKernel i => andl [negb (i >? nk - 1)]
  | _ => true
  end.

Definition gcells (c : config) (g : op) : list loc :=
  match g with
  | GetDoub => [DoubDTau] | GetPade => [PadeS; PadeR] | GetSos => [SosMaxOs; SosMaxTau; SosTol]
  | GetFourierTol => [FourierTol] | GetLambda => [Lambda] | GetPlanetR => [PlanetR]
  | GetLevelsZ => map LevelsZ (zseq 0 (c_n_layers c + 1))
  | GetOutLevels => map Ulevels (zseq 0 (c_n_ulevels c))
  | GetOutTaus => map Utaus (zseq 0 (c_n_ulevels c))
  | GetOutThetas => map (fun i => Qx (c_n_quad c + i)) (zseq 0 (c_n_umus c))
  | GetFIsoTop => [FIsoTop] | GetFIsoBot => [FIsoBot]
  | GetFIsoTopL i => [FIsoTopL i] | GetFIsoBotL i => [FIsoBotL i]
  | GetF0 => [F0] | GetTheta0 => [Mu00] | GetPhi0 => [Phi0]
  | GetLevelsB => map LevelsB (zseq 0 (c_n_layers c + 1))
  | GetLevelsBL j => map (fun i => LevelsBL i j) (zseq 0 (c_n_layers c + 1))
  | GetSurfaceB => [SurfaceB] | GetSurfaceBL j => [SurfaceBL j]
  | GetNCoef i => [NCoefLayer i] | GetCoef i j k => [Coef0 i j k]
  | GetCoefL i d j k => [Coef0L i d j k]
  | GetOmega i => [Omega0 i] | GetLtau i => [Ltau0 i]
  | GetOmegaL i j => [Omega0L i j] | GetLtauL i j => [Ltau0L i j]
  | GetKAmp i => [KAmp i] | GetKPar i j => [KPar i j]
  | GetKAmpL i d => [KAmpL i d] | GetKParL i d p => [KParL i d p]
  | GetQx => map Qx (zseq 0 (c_n_quad c + c_n_umus c))
  | _ => []
  end.

Definition gcfg (c : config) (g : op) : list val :=
  match g with
  | GetOptions => [VZ (Z.of_N (c_options c))]
  | GetSolvers => [VZ (Z.of_N (c_solvers c))]
  | GetMaxCoef => [VZ (c_n_coef c)] | GetNQuad => [VZ (c_n_quad c)]
  | GetNStokes => [VZ (c_n_stokes c)] | GetNElem => [VZ (c_n_elem c)]
  | GetNDerivs => [VZ (c_n_derivs c)] | GetNLayers => [VZ (c_n_layers c)]
  | GetNKernels => [VZ (c_n_kernels c)] | GetNKernelQuad => [VZ (c_n_kernel_quad c)]
  | GetKernel i => [VZ (xz (c_kernels c) i)]
  | GetNOutLevels => [VZ (c_n_ulevels c)] | GetNOutThetas => [VZ (c_n_umus c)]
  | GetNOutThetas2 => [VZ (c_n_out_thetas_2 c)]
  | _ => []
  end.

Definition cellv (h : handle) (l : loc) : val :=
  match h_mem h l with Some v => v | None => VZ 0 end.

(** Indices for which the getter does not read outside its arrays before checking. *)
Definition gsafe (h : handle) (g : op) : Prop :=
  match g with
  | GetNCoef i | GetCoef i _ _ | GetOmega i | GetLtau i => iib h = true -> 0 <= i < c_n_layers (h_cfg h)
  | GetKAmp i => iib h = true -> 0 <= i < c_n_kernels (h_cfg h)
  | GetKPar i j => iib h = true -> 0 <= i < c_n_kernels (h_cfg h) /\ 0 <= j < 4
  | GetKernel i => 0 <= i
  | GetQx => isset h FlUmus \/ c_n_umus (h_cfg h) = 0
  | _ => True
  end.

(** Every coefficient of a set layer has a value. *)
Definition coefdef (h : handle) : Prop := has_slv (h_alloc h) SOLVERS_USE_COEF = true ->
  forall i j k, 0 <= i < c_n_layers (h_alloc h) -> isset h (FlCoef i) ->
    0 <= j < c_n_elem (h_alloc h) -> 0 <= k < ncl h i -> h_mem h (Coef0 i j k) <> None.

Section Getters.
Variables cosd acosd : dbl -> dbl.
Notation inv := (inv cosd).
Notation exec := (exec cosd acosd).

Definition gpost (g : op) (v : val) : val :=
  match g with
  | GetOutThetas | GetTheta0 => match v with VD d => VD (acosd d) | VZ z => VZ z end
  | _ => v
  end.

Definition gres (h : handle) (g : op) : list val :=
  gcfg (h_cfg h) g ++ map (fun l => gpost g (cellv h l)) (gcells (h_cfg h) g).

Lemma pc_flag h f e : inv h -> isflag f = true -> (iib h = true -> acch h f) ->
  pcheck h (GET_INPUTS_CHECK_SET_FLAGS f e) (flagged h f).
Proof.
  intros I F A. unfold GET_INPUTS_CHECK_SET_FLAGS, flagged, pcheck.
  destruct (rd_ii h (core_ii _ (i_core _ _ I))) as (z & E & B).
  erewrite bind_eq by exact E. rewrite B in *. destruct (z =? 0) eqn:Z0; cbn [negb orb].
  - reflexivity.
  - destruct (flag_val _ h f I F) as (n & En & _). rewrite En.
    erewrite bind_eq by (apply rdZ_ok; [apply A; reflexivity|exact En]).
    destruct (n =? 0); cbn; eauto.
Qed.

Lemma collect_rd h (l : list Z) (f : Z -> loc) : (forall i, In i l -> acch h (f i) /\ h_mem h (f i) <> None) ->
  collect l (fun i => rd (f i)) h = Ret (map (fun x => cellv h x) (map f l)) h.
Proof.
  induction l as [|i l IH]; intro H; cbn [collect map]; [reflexivity|].
  destruct (H i (or_introl eq_refl)) as [A D]. unfold cellv at 1.
  destruct (h_mem h (f i)) as [v|] eqn:E; [|easy].
  erewrite bind_eq by (apply rd_ok; eauto). erewrite bind_eq; [reflexivity|].
  apply IH. intros; apply H; now right.
Qed.

Lemma gets_one h l : acch h l -> h_mem h l <> None -> one (rd l) h = Ret [cellv h l] h.
Proof.
  intros A D. unfold one, cellv. destruct (h_mem h l) as [v|] eqn:E; [|easy].
  now erewrite bind_eq by (apply rd_ok; eauto).
Qed.

(** Cells read by an accepting getter hold values. *)
Definition gdef_ok (h : handle) (g : op) : Prop :=
  match g with
  | GetLambda => h_mem h Lambda <> None
  | GetCoef i j k => h_mem h (Coef0 i j k) <> None
  | GetQx => isset h FlUmus \/ c_n_umus (h_cfg h) = 0
  | _ => True
  end.

Lemma flagged_set h f : inv h -> isflag f = true -> flagged h f = true ->
  (iib h = false -> isset h f \/ needed (h_alloc h) f = true) -> isset h f.
Proof.
  intros I F H N. unfold flagged in H. destruct (iib h) eqn:B; cbn in H.
  - destruct (flag_val _ h f I F) as (n & En & [-> | ->]); rewrite En in H; [discriminate|exact En].
  - destruct N as [N|N]; auto. now apply (i_ready _ _ I).
Qed.

Lemma use_coef_eq h : inv h -> has_slv (h_cfg h) = has_slv (h_alloc h).
Proof.
  intro I. unfold has_slv. now rewrite (de_slv _ _ (cfg_dims _ _ (k_cfg _ (i_core _ _ I)))).
Qed.

Lemma deriv_opt h i : inv h -> 0 <= i < c_n_derivs (h_cfg h) ->
  has_opt (h_alloc h) OPT_CALC_DERIVS = true /\ c_n_derivs (h_cfg h) = c_n_derivs (h_alloc h).
Proof.
  intros I Hi. pose proof (cfg_dims _ _ (k_cfg _ (i_core _ _ I))) as KC.
  destruct (de_nd _ _ KC) as [E|E]; [|lia]. split; auto.
  destruct (has_opt (h_alloc h) OPT_CALC_DERIVS) eqn:D; auto.
  apply (g_nd0 _ (k_good _ (i_core _ _ I))) in D. lia.
Qed.

Ltac ander := repeat match goal with
  | H : andl _ = true |- _ => cbn [andl fold_right] in H
  | H : _ && _ = true |- _ => apply andb_true_iff in H as [? ?]
  | H : in_range _ _ = true |- _ => rewrite in_range_iff in H
  end.

Lemma gcells_ok h g l : inv h -> is_getter g = true -> gaccept h g = true -> gdef_ok h g ->
  In l (gcells (h_cfg h) g) -> acch h l /\ h_mem h l <> None.
Proof.
  intros I G A D L. pose proof (i_core _ _ I) as C. pose proof (cfg_dims _ _ (k_cfg _ C)) as KC.
  pose proof (k_good _ C) as KG.
  pose proof (de_nl _ _ KC) as E1. pose proof (de_nq _ _ KC) as E2. pose proof (de_nk _ _ KC) as E3.
  pose proof (de_nu _ _ KC) as E4. pose proof (de_num _ _ KC) as E5. pose proof (de_ks _ _ KC) as E6.
  pose proof (de_ne _ _ KC) as E7.
  pose proof (use_coef_eq _ I) as ES. pose proof (g_nq _ KG) as E8.
  assert (EO : forall k, k <> 0%N -> has_opt (h_cfg h) (bit k) = has_opt (h_alloc h) (bit k))
    by (intros; now apply opt_eq).
  assert (FL : forall l f, flag_of (h_alloc h) l = Some f -> flagged h f = true ->
    (iib h = false -> isset h f \/ needed (h_alloc h) f = true) -> acch h l -> h_mem h l <> None).
  { intros l0 f F2 F3 N A0. pose proof (flag_of_isflag _ _ _ F2) as F1. eapply (i_flag _ _ I); eauto using flagged_set, acc_mono. }
  assert (EP : forall k, (k =? 0)%N = false -> has_opt (h_cfg h) (bit k) = true -> has_opt (h_alloc h) (bit k) = true).
  { intros k Hk Hh. rewrite <- EO; auto. now apply N.eqb_neq. }
  destruct g; try discriminate G; cbn [gcells] in L; cbn [gaccept] in A; ander;
    repeat match goal with
    | H : In _ (map _ _) |- _ => apply in_map_iff in H as (? & <- & H); apply in_zseq in H
    | H : In _ (_ :: _) |- _ => destruct H as [<-|H]
    | H : In _ [] |- _ => destruct H
    end;
    try match goal with H : 0 <= ?i < c_n_derivs (h_cfg h) |- _ => destruct (deriv_opt h i I H) as [DO DE] end;
    try match goal with H : has_opt (h_cfg h) ?o = true |- _ =>
          assert (has_opt (h_alloc h) o = true) by (unfold o in *; apply EP; [reflexivity|exact H]) end;
    rewrite ?ES in *.
  all: match goal with |- acch ?hh ?l /\ _ => assert (AC : acch hh l) end;
    [unfold acch; cbn [acc]; rewrite ?andb_true_iff, ?in_range_iff; repeat match goal with |- _ /\ _ => split end; auto; try lia
    |split; [exact AC|]].
  all: try solve [eapply FL; [reflexivity|eassumption|intros _; right|exact AC];
                  cbn [needed]; auto; rewrite ?andb_true_iff, ?in_range_iff, <- ?E6; repeat match goal with |- _ /\ _ => split end; auto; lia].
  all: try solve [apply (i_always _ _ I); reflexivity].
  all: try (pose proof (kernel_params_le_4 (xz (c_kernels (h_cfg h)) i)); lia).
  - (* lambda *) exact D.
  - (* out_taus *) rewrite <- (g_out _ KG). assumption.
  - (* thetas *) eapply FL; [|eassumption|intros _; right|exact AC].
    + cbn. destruct (Z.ltb_spec (c_n_quad (h_cfg h) + x) (c_n_quad (h_alloc h))); [lia|reflexivity].
    + cbn. lia.
  - (* ncoef *) destruct (k_ncl _ C i ltac:(lia)) as (n & -> & _). discriminate.
  - (* coef *) destruct (k_ncl _ C i ltac:(lia)) as (n & En & Bn). assert (ncl h i = n) by (unfold ncl; now rewrite En).
    pose proof (de_nc _ _ KC). lia.
  - exact D.
  - destruct (k_ncl _ C i ltac:(lia)) as (n & En & Bn). assert (ncl h i = n) by (unfold ncl; now rewrite En).
    pose proof (de_nc _ _ KC). lia.
  - cbn [gdef_ok] in D. destruct (qx_def _ h x I) as (d & ->); [|discriminate]. unfold qn. rewrite <- E2, <- E5.
    destruct D as [D|D]; [rewrite D; lia|]. destruct (h_mem h FlUmus) as [[[]|]|]; lia.
Qed.

Lemma coefdef_cell h i j k : inv h -> coefdef h -> gaccept h (GetCoef i j k) = true -> gdef_ok h (GetCoef i j k).
Proof.
  intros I D A. cbn [gaccept gdef_ok] in *. ander. pose proof (i_core _ _ I) as C.
  pose proof (cfg_dims _ _ (k_cfg _ C)) as KC. rewrite (de_nl _ _ KC), (de_ne _ _ KC) in *.
  rewrite (use_coef_eq _ I) in *.
  apply D; try lia; try assumption. eapply flagged_set; eauto.
  intros _. right. cbn [needed]. apply andb_true_iff. split; [assumption|apply in_range_iff; lia].
Qed.

Lemma lambda_cell h : inv h -> gaccept h GetLambda = true -> isset h FlLambda \/ iib h = true -> gdef_ok h GetLambda.
Proof.
  intros I A D. cbn [gaccept gdef_ok] in *. ander.
  assert (S : isset h FlLambda).
  { eapply flagged_set; eauto. intro B. left. destruct D; congruence. }
  apply (i_flag _ _ I) with (f := FlLambda); auto.
Qed.

Lemma R_rdZ {A} h l n (k : Z -> M A) acc a h' : rdZ l h = Ret n h -> R h (k n) acc a h' ->
  R h (bind (rdZ l) k) acc a h'.
Proof. intros E H. unfold R in *. now rewrite (bind_eq _ _ _ _ _ E). Qed.

Lemma R_rd {A} h l (k : val -> M A) acc a h' : acch h l -> h_mem h l <> None -> R h (k (cellv h l)) acc a h' ->
  R h (bind (rd l) k) acc a h'.
Proof.
  intros A0 D H. unfold cellv in H. destruct (h_mem h l) as [v|] eqn:E; [|easy].
  unfold R in *. now rewrite (bind_eq _ _ _ _ _ (rd_ok _ _ _ A0 E)).
Qed.

Lemma R_collect h (l : list Z) (f : Z -> loc) : (forall i, In i l -> acch h (f i) /\ h_mem h (f i) <> None) ->
  R h (collect l (fun i => rd (f i))) true (map (fun x => cellv h x) (map f l)) h.
Proof. intro H. unfold R. now apply collect_rd. Qed.

Lemma R_kat {A} h i (k : Z -> M A) acc a h' : 0 <= i < len (c_kernels (h_cfg h)) ->
  R h (k (xz (c_kernels (h_cfg h)) i)) acc a h' -> R h (bind (kernel_at i) k) acc a h'.
Proof. intros Hi H. unfold kernel_at. apply R_assoc. apply R_cfg. now apply (R_ua 0). Qed.

Lemma R_ncl {A} h i (k : Z -> M A) b0 a h' : core h -> 0 <= i < c_n_layers (h_alloc h) /\ has_slv (h_alloc h) SOLVERS_USE_COEF = true ->
  R h (k (ncl h i)) b0 a h' -> R h (bind (rdZ (NCoefLayer i)) k) b0 a h'.
Proof.
  intros C [Hi S] H. destruct (k_ncl _ C i Hi) as (n & En & _). unfold ncl in H. rewrite En in H.
  eapply R_rdZ; [|exact H]. apply rdZ_ok; auto. unfold acch. cbn [acc]. rewrite S. now apply in_range_iff.
Qed.

Lemma R_collectD h (l : list Z) (f : Z -> loc) : (forall i, In i l -> acch h (f i) /\ h_mem h (f i) <> None) ->
  (forall i v, h_mem h (f i) = Some v -> exists d, v = VD d) ->
  R h (collect l (fun i => a <- rdD (f i);; ret (VD (acosd a)))) true
    (map (fun x => gpost GetOutThetas (cellv h x)) (map f l)) h.
Proof.
  intros H T. unfold R. induction l as [|i l IH]; cbn [collect map]; [reflexivity|].
  destruct (H i (or_introl eq_refl)) as [A D]. unfold cellv at 1.
  destruct (h_mem h (f i)) as [v|] eqn:E; [|easy]. destruct (T _ _ E) as (d & ->). cbn [gpost].
  rewrite bind_assoc. erewrite bind_eq by (apply rdD_ok; eauto). erewrite (bind_eq (ret _)) by reflexivity.
  erewrite bind_eq; [reflexivity|]. apply IH. intros; apply H; now right.
Qed.

Ltac clos Hc := apply Hc; [cbn [gaccept andl fold_right];
    repeat match goal with H : ?b = true |- context [?b] => rewrite H end; cbn; reflexivity
  | cbn [gcells]; first [now left | right; now left | right; right; now left
                        | apply in_map_iff; eexists; split; [reflexivity|assumption] ] ].

Lemma getter_R h g : inv h -> is_getter g = true -> gsafe h g -> (gaccept h g = true -> gdef_ok h g) ->
  R h (exec g) (gaccept h g) (gres h g) h.
Proof.
  intros I G GS GD. pose proof (i_core _ _ I) as C. pose proof (cfg_dims _ _ (k_cfg _ C)) as KC.
  pose proof (k_good _ C) as KG.
  assert (Hc : gaccept h g = true -> forall l, In l (gcells (h_cfg h) g) -> acch h l /\ h_mem h l <> None)
    by (intros A l; apply gcells_ok; auto).
  assert (Hty : forall l v, h_mem h l = Some v -> okv cosd (h_alloc h) l v) by apply (i_typed _ _ I).
  assert (LV : iib h = true -> forall b, b <> BKAmp -> b <> BKPar -> b <> BKFunc -> h_live h b = true).
  { intros B b N1 N2 N3. rewrite (k_live _ C). destruct b; congruence. }
  assert (LK : iib h = true -> 0 < c_n_kernels (h_cfg h) -> h_live h BKAmp = true /\ h_live h BKPar = true).
  { intros B Hk. rewrite (de_nk _ _ KC) in Hk. rewrite !(k_live _ C), B. destruct (Z.gtb_spec (c_n_kernels (h_alloc h)) 0); auto; lia. }
  assert (KAT : forall i, 0 <= i < c_n_kernels (h_cfg h) -> 0 <= i < len (c_kernels (h_cfg h))).
  { intros i Hi. rewrite (de_ks _ _ KC), (g_ks _ KG), <- (de_nk _ _ KC). exact Hi. }
  unfold gres.
  destruct g; try discriminate G; cbn [exec HandleModel.exec gaccept gcfg app andl fold_right];
    match goal with |- R _ ?t _ _ _ => let t' := eval unfold get_doub_d_tau, get_pade_params, get_sos_params, get_fourier_tol, get_lambda, get_planet_r,
      get_levels_z, get_out_levels, get_out_taus, get_out_thetas, get_F_iso_top, get_F_iso_bot, get_F_iso_top_l, get_F_iso_bot_l,
      get_F_0, get_theta_0, get_phi_0, get_levels_b, get_levels_b_l, get_surface_b, get_surface_b_l, get_g_x, get_n_coef, get_coef,
      get_coef_l, get_omega, get_ltau, get_x_l, get_kernel_ampfac, get_kernel_params, get_kernel_ampfac_l, get_kernel_params_l,
      get_kernel, get_qx, getc in t in change t with t' end;
    try match goal with |- R _ (need_slv SOLVERS_USE_G _;; _) _ _ _ => eexists; reflexivity end;
    repeat first
     [ apply R_cfg
     | match goal with
       | |- R h (bind (kernel_at ?i) _) _ _ _ => apply R_kat; [apply KAT|]
       | |- R h (bind (rdZ (NCoefLayer ?i)) _) _ _ _ => apply R_ncl; [exact C| |]
       | |- R h (GET_INPUTS_CHECK_SET_FLAGS _ _;; _) (_ && _) _ _ => apply R_check; [apply pc_flag; [exact I|reflexivity|intro IIB]|intro]
       | |- R h (need_slv _ _;; _) (_ && _) _ _ => apply R_check; [apply pc_need_slv|intro]
       | |- R h (need_opt _ _;; _) (_ && _) _ _ => apply R_check; [apply pc_need_opt|intro]
       | |- R h (CHECK_INDEX_RANGE _ _ _;; _) (_ && _) _ _ => apply R_check; [apply pc_index|intro]
       | |- R h (CHECK_N_KERNELS_NOT_ZERO _;; _) (_ && _) _ _ => apply R_check; [apply pc_nk|intro]
       | |- R h (reject_if _ _;; _) (_ && _) _ _ => apply R_check; [apply pc_reject|intro]
       end ].
  all: repeat match goal with H : in_range ?a ?b = true |- _ =>
         lazymatch goal with _ : 0 <= a < b |- _ => fail | _ => pose proof (proj1 (in_range_iff a b) H) end end.
  all: cbn [gcells map gpost]; try assumption.
  (* flags are readable *)
  all: try match goal with |- acch _ ?f => try reflexivity; cbn [gsafe] in GS; specialize (GS IIB);
         unfold acch; cbn [acc]; rewrite ?LV, ?andb_true_l by (assumption || discriminate) end.
  all: try match goal with |- in_range _ _ = true => apply in_range_iff; rewrite <- ?(de_nl _ _ KC); exact GS end.
  all: try (destruct (LK IIB) as [L1 L2]; [lia|]; rewrite ?L1, ?L2, <- ?(de_nk _ _ KC); cbn [andb];
            rewrite ?andb_true_iff, ?in_range_iff; solve [auto]).
  all: try (split; [rewrite <- (de_nl _ _ KC); assumption|rewrite <- (use_coef_eq _ I); assumption]).
  all: repeat match goal with |- R _ (bind (rd _) _) _ _ _ => apply R_rd; [clos Hc|clos Hc|] end.
  all: try (apply gets_one; clos Hc).
  all: try reflexivity.
  all: try match goal with |- R _ (CHECK_INDEX_RANGE _ _ _;; _) (_ && _) _ _ => apply R_check; [apply pc_index|intro] end.
  all: try (apply gets_one; clos Hc).
  all: try (apply R_collect; intros; clos Hc).
  - (* out_thetas *) apply (R_collectD h _ (fun i => Qx (c_n_quad (h_cfg h) + i))); [intros; clos Hc|].
    intros i v E. apply Hty in E. destruct v; [easy|eauto].
  - (* theta_0 *) assert (acch h Mu00 /\ h_mem h Mu00 <> None) as [A D] by clos Hc. unfold cellv.
    destruct (h_mem h Mu00) as [v|] eqn:E; [|easy]. pose proof (Hty _ _ E) as T. destruct v; [easy|].
    unfold R. now erewrite bind_eq by (apply rdD_ok; eauto).
  - (* g *) unfold R, need_slv. eexists. erewrite (bind_assoc cfg). erewrite bind_eq by reflexivity.
    replace (has_slv (h_cfg h) SOLVERS_USE_G) with false; [reflexivity|].
    unfold has_slv, tst, SOLVERS_USE_G. now rewrite N.land_0_r.
  - cbn [gsafe] in GS. lia.
Qed.
End Getters.
