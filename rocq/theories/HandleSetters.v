(** Closed form of every setter: acceptance condition and effect. *)
From Coq Require Import ZArith NArith List Bool Lia SpecFloat.
From Verif Require Import Base OptionsModel OptionsSpec OptionsProofs Dbl HandleModel HandleTable.
Import ListNotations.
Open Scope Z_scope.

(* ------------------------------------------------------------------------- *)
(** * States                                                                  *)

(** Facts about a created configuration used by the safety proofs. *)
Record good (c : config) : Prop := {
  g_nl : 1 <= c_n_layers c; g_nq : 1 <= c_n_quad c; g_nd : 0 <= c_n_derivs c;
  g_nd1 : has_opt c OPT_CALC_DERIVS = true -> 1 <= c_n_derivs c;
  g_nd0 : has_opt c OPT_CALC_DERIVS = false -> c_n_derivs c = 0;
  g_nk : 0 <= c_n_kernels c; g_ks : len (c_kernels c) = c_n_kernels c;
  g_kv : forall i, 0 <= i < c_n_kernels c -> kernel_is_valid (xz (c_kernels c) i) = true;
  g_nc : 0 <= c_n_coef c; g_nc2 : 0 <= c_n_coef2 c <= c_n_coef c; g_ne : 1 <= c_n_elem c;
  g_nu : 1 <= c_n_ulevels c; g_num : 0 <= c_n_umus c; g_nf : 1 <= c_n_four c;
  g_out : has_opt c OPT_OUTPUT_AT_TAUS = negb (has_opt c OPT_OUTPUT_AT_LEVELS) }.

(** The current configuration is the created one, or (after a failed xrtm_solution_2) the
    created one with derivatives switched off. *)
Definition cfg_rel (c a : config) : Prop :=
  c = a \/ (has_opt a OPT_CALC_DERIVS = true
            /\ c = with_derivs (N.lxor (c_options a) OPT_CALC_DERIVS) 0 a).

Definition ncl (h : handle) (i : Z) : Z :=
  match h_mem h (NCoefLayer i) with Some (VZ n) => n | _ => 0 end.

Record core (h : handle) : Prop := {
  k_good : good (h_alloc h);
  k_cfg : cfg_rel (h_cfg h) (h_alloc h);
  k_ii : h_mem h InputsInit = Some (VZ 0) \/ h_mem h InputsInit = Some (VZ 1);
  k_live : forall b, h_live h b =
    match b with
    | BG | BCoef | BOmega | BLtau => iib h
    | BKAmp | BKPar => iib h && (c_n_kernels (h_alloc h) >? 0)
    | BKFunc => c_n_kernels (h_alloc h) >? 0
    end;
  k_ncl : forall i, 0 <= i < c_n_layers (h_alloc h) ->
    exists n, h_mem h (NCoefLayer i) = Some (VZ n) /\ 0 <= n <= c_n_coef (h_alloc h) }.

Lemma core_ii h : core h -> ii_ok h.
Proof. intros C. destruct (k_ii h C); eexists; eauto. Qed.

Lemma kernel_params_le_4 t : kernel_n_params t <= 4.
Proof.
  unfold kernel_n_params. destruct (kernel_is_valid t) eqn:E; [|lia].
  apply kernel_valid_iff in E.
  assert (t = 0 \/ t = 1 \/ t = 2 \/ t = 3 \/ t = 4 \/ t = 5 \/ t = 6 \/ t = 7 \/ t = 8 \/ t = 9 \/ t = 10) by lia.
  repeat match goal with H : _ \/ _ |- _ => destruct H as [->|H] | H : t = _ |- _ => subst t end;
    vm_compute; discriminate.
Qed.

(** Dimensions agree between the current and the allocated configuration. *)
Record dims_eq (c a : config) : Prop := {
  de_slv : c_solvers c = c_solvers a; de_nl : c_n_layers c = c_n_layers a;
  de_nq : c_n_quad c = c_n_quad a; de_nk : c_n_kernels c = c_n_kernels a;
  de_ks : c_kernels c = c_kernels a; de_nc : c_n_coef c = c_n_coef a;
  de_nc2 : c_n_coef2 c = c_n_coef2 a; de_ne : c_n_elem c = c_n_elem a;
  de_nu : c_n_ulevels c = c_n_ulevels a; de_num : c_n_umus c = c_n_umus a;
  de_nf : c_n_four c = c_n_four a; de_nst : c_n_stokes c = c_n_stokes a;
  de_opt : forall k, (k <> 0)%N -> tst (c_options c) (bit k) = tst (c_options a) (bit k);
  de_nd : c_n_derivs c = c_n_derivs a \/ c_n_derivs c = 0;
  de_der : has_opt c OPT_CALC_DERIVS = true ->
           has_opt a OPT_CALC_DERIVS = true /\ c_n_derivs c = c_n_derivs a }.

Lemma cfg_dims c a : cfg_rel c a -> dims_eq c a.
Proof.
  intros [->|[H ->]]; [constructor; auto|]. constructor; cbn; auto.
  - intros k Hk. rewrite !tst_bit, N.lxor_spec. unfold OPT_CALC_DERIVS. rewrite bit_testbit.
    destruct (N.eqb_spec 0 k); [congruence|]. apply xorb_false_r.
  - unfold has_opt in *. cbn. unfold OPT_CALC_DERIVS in *. rewrite tst_bit in *.
    rewrite N.lxor_spec, bit_testbit, H. cbn. discriminate.
Qed.

Lemma opt_eq c a k : dims_eq c a -> (k <> 0)%N -> has_opt c (bit k) = has_opt a (bit k).
Proof. intros D Hk. apply (de_opt _ _ D k Hk). Qed.

(* ------------------------------------------------------------------------- *)
(** * What the caller must pass: arrays as long as the documented dimension    *)

Definition wide {A} (x : list (list A)) (rows cols : Z) : Prop :=
  rows <= len x /\ forall i, 0 <= i < rows -> cols <= len (xl x i).

Definition sized (h : handle) (o : op) : Prop :=
  let c := h_cfg h in
  let nl := c_n_layers c in let nd := c_n_derivs c in let ne := c_n_elem c in
  let np i := kernel_n_params (xz (c_kernels c) i) in
  match o with
  | SetLevelsZ x | SetLevelsB x | SetLevelsBL1 _ x => nl + 1 <= len x
  | SetOutLevels x => c_n_ulevels c <= len x
  | SetOutTaus x => c_n_ulevels c <= len x
  | SetOutThetas x => c_n_umus c <= len x
  | SetFIsoTopLn x | SetFIsoBotLn x | SetSurfaceBLn x => nd <= len x
  | SetLevelsBLn x => wide x (nl + 1) nd
  | SetCoef1 i n x => wide x ne (if n <? 0 then c_n_coef c else n)
  | SetCoefn ns x =>
      nl <= len x /\
      match ns with
      | None => forall i, 0 <= i < nl -> wide (xl x i) ne (c_n_coef c)
      | Some ns => nl <= len ns /\ forall i, 0 <= i < nl -> wide (xl x i) ne (xz ns i)
      end
  | SetCoefL11 i _ x => wide x ne (ncl h i)
  | SetCoefLn1 _ x => nl <= len x /\ forall i, 0 <= i < nl -> wide (xl x i) ne (ncl h i)
  | SetCoefL1n i x => nd <= len x /\ forall d, 0 <= d < nd -> wide (xl x d) ne (ncl h i)
  | SetCoefLnn x => nl <= len x /\ forall i, 0 <= i < nl ->
      nd <= len (xl x i) /\ forall d, 0 <= d < nd -> wide (xl (xl x i) d) ne (ncl h i)
  | SetOmegan x | SetLtaun x | SetOmegaLn1 _ x | SetLtauLn1 _ x => nl <= len x
  | SetOmegaL1n _ x | SetLtauL1n _ x | SetKAmpLn _ x | SetKParLn1 _ _ x => nd <= len x
  | SetOmegaLnn x | SetLtauLnn x => wide x nl nd
  | SetKParn i x | SetKParL1n i _ x => np i <= len x
  | SetKParLnn i x => wide x nd (np i)
  | _ => True
  end.

(* ------------------------------------------------------------------------- *)
(** * The table                                                               *)

Definition andl (l : list bool) : bool := fold_right andb true l.

Definition omega_in (a : dbl) : bool := negb (dlt a d_zero || dgt a d_one).
Definition omega_adj (a : dbl) : dbl := singularity_adjust_down d_one a d_1em5.

Definition level_ok (c : config) (a : Z) : bool :=
  negb (negb (a =? 0) && negb (a =? c_n_layers c)
        && negb (check_solvers_va (c_solvers c)
                   [SOLVER_DOUB_ADD; SOLVER_EIG_ADD; SOLVER_PADE_ADD; SOLVER_SOS;
                    SOLVER_TWO_OS; 0%N] =? 0)).

(** Setters that either fail without any effect or succeed. *)
Definition simple (o : op) : bool :=
  match o with
  | SetDoub _ | SetPade _ _ | SetSos _ _ _ | SetFourierTol _ | SetLambda _ | SetPlanetR _
  | SetLevelsZ _ | SetOutLevels _ | SetFIsoTop _ | SetFIsoTopL1 _ _ | SetFIsoTopLn _
  | SetFIsoBot _ | SetFIsoBotL1 _ _ | SetFIsoBotLn _ | SetF0 _ | SetPhi0 _ | SetLevelsB _
  | SetLevelsBL1 _ _ | SetLevelsBLn _ | SetSurfaceB _ | SetSurfaceBL1 _ _ | SetSurfaceBLn _
  | SetG _ _ | SetGL _ _ _ | SetCoefL11 _ _ _ | SetCoefLn1 _ _ | SetCoefL1n _ _ | SetCoefLnn _
  | SetOmega1 _ _ | SetOmegan _ | SetOmegaL11 _ _ _ | SetOmegaLn1 _ _ | SetOmegaL1n _ _
  | SetOmegaLnn _ | SetLtau1 _ _ | SetLtaun _ | SetLtauL11 _ _ _ | SetLtauLn1 _ _
  | SetLtauL1n _ _ | SetLtauLnn _ | SetKAmp _ _ | SetKPar1 _ _ _ | SetKParn _ _
  | SetKAmpL1 _ _ _ | SetKAmpLn _ _ | SetKParL11 _ _ _ _ | SetKParL1n _ _ _ | SetKParLn1 _ _ _
  | SetKParLnn _ _ | SetKFunc _ _ => true
  | _ => false
  end.

Definition accept (c : config) (o : op) : bool :=
  let nl := c_n_layers c in let nd := c_n_derivs c in let nk := c_n_kernels c in
  let der := has_opt c OPT_CALC_DERIVS in
  let thm := has_opt c OPT_SOURCE_THERMAL in
  let np i := kernel_n_params (xz (c_kernels c) i) in
  let kz := negb (nk =? 0) in
  match o with
  | SetDoub x => andl [negb (dle x d_zero)]
  | SetSos n t e => andl [negb (n <=? 0); negb (dle t d_zero); negb (dlt e d_zero)]
  | SetFourierTol x => andl [negb (dlt x d_zero)]
  | SetLambda x => andl [thm; negb (dle x d_zero)]
  | SetPlanetR x => andl [has_opt c OPT_PSA; negb (dle x d_zero)]
  | SetLevelsZ x => andl [has_opt c OPT_PSA;
      forallb (fun i => negb (dgt (xd x i) (xd x (i - 1)))) (zseq 1 (nl + 1))]
  | SetOutLevels x => andl [has_opt c OPT_OUTPUT_AT_LEVELS;
      negb ((xz x 0 <? 0) || (xz x 0 >? nl));
      forallb (fun i => negb ((xz x i <=? xz x (i - 1)) || (xz x i >? nl))) (zseq 1 (c_n_ulevels c));
      forallb (fun i => level_ok c (xz x i)) (zseq 0 (Z.min 2 (c_n_ulevels c)));
      negb (has_opt c OPT_TOP_DOWN_ADDING && negb (xz x 0 =? nl));
      negb (has_opt c OPT_BOTTOM_UP_ADDING && negb (xz x 0 =? 0))]
  | SetFIsoTop x | SetFIsoBot x => andl [negb (dlt x d_zero)]
  | SetFIsoTopL1 i _ | SetFIsoBotL1 i _ => andl [der; in_range i nd]
  | SetFIsoTopLn _ | SetFIsoBotLn _ => andl [der]
  | SetF0 x => andl [has_opt c OPT_SOURCE_SOLAR; negb (dlt x d_zero)]
  | SetLevelsB x => andl [thm; forallb (fun i => negb (dlt (xd x i) d_zero)) (zseq 0 (nl + 1))]
  | SetLevelsBL1 j _ | SetSurfaceBL1 j _ => andl [thm; der; in_range j nd]
  | SetLevelsBLn _ | SetSurfaceBLn _ => andl [thm; der]
  | SetSurfaceB x => andl [thm; negb (dlt x d_zero)]
  | SetG _ _ => andl [has_slv c SOLVERS_USE_G]
  | SetGL _ _ _ => andl [der; has_slv c SOLVERS_USE_G]
  | SetCoefL11 i d _ => andl [der; has_slv c SOLVERS_USE_COEF; in_range i nl; in_range d nd]
  | SetCoefLn1 d _ => andl [der; has_slv c SOLVERS_USE_COEF; in_range 0 nl; in_range d nd]
  | SetCoefL1n i _ => andl [der; has_slv c SOLVERS_USE_COEF; in_range i nl; in_range 0 nd]
  | SetCoefLnn _ => andl [der; has_slv c SOLVERS_USE_COEF; in_range 0 nl; in_range 0 nd]
  | SetOmega1 i x => andl [in_range i nl;
      forallb (fun k => omega_in (xd [x] (k - i))) (zseq i (i + 1))]
  | SetOmegan x => andl [in_range 0 nl; forallb (fun k => omega_in (xd x (k - 0))) (zseq 0 nl)]
  | SetOmegaL11 i j _ | SetLtauL11 i j _ => andl [der; in_range i nl; in_range j nd]
  | SetOmegaLn1 j _ | SetLtauLn1 j _ => andl [der; in_range 0 nl; in_range j nd]
  | SetOmegaL1n i _ | SetLtauL1n i _ => andl [der; in_range i nl; in_range 0 nd]
  | SetOmegaLnn _ | SetLtauLnn _ => andl [der; in_range 0 nl; in_range 0 nd]
  | SetLtau1 i x => andl [in_range i nl;
      forallb (fun k => negb (dle (xd [x] (k - i)) d_zero)) (zseq i (i + 1))]
  | SetLtaun x => andl [in_range 0 nl; forallb (fun k => negb (dle (xd x (k - 0)) d_zero)) (zseq 0 nl)]
  | SetKAmp i x => andl [kz; in_range i nk; negb (dlt x d_zero || dgt x d_one)]
  | SetKPar1 i j _ => andl [kz; in_range i nk; in_range j (np i)]
  | SetKParn i _ => andl [kz; in_range i nk]
  | SetKAmpL1 i d _ => andl [kz; der; in_range i nk; in_range d nd]
  | SetKAmpLn i _ => andl [kz; der; in_range i nk]
  | SetKParL11 i d p _ => andl [kz; der; in_range i nk; in_range d nd; in_range p (np i)]
  | SetKParL1n i d _ => andl [kz; der; in_range i nk; in_range d nd]
  | SetKParLn1 i p _ => andl [kz; der; in_range i nk; in_range p (np i)]
  | SetKParLnn i _ => andl [kz; der; in_range i nk]
  | SetKFunc i _ => andl [kz; in_range i nk; negb (negb (xz (c_kernels c) i =? KERNEL_USER_DEFINED))]
  | _ => true
  end.

Definition grid {A} (xs : list A) (ys : list Z) (f : A -> Z -> loc) (g : A -> Z -> dbl) : ws :=
  flat_map (fun i => flat_map (fun j => [(f i j, VD (g i j))]) ys) xs.
Definition row (xs : list Z) (f : Z -> loc) (g : Z -> dbl) : ws :=
  flat_map (fun i => [(f i, VD (g i))]) xs.
Definition rowf (b : bool) (xs : list Z) (f fl : Z -> loc) (g : Z -> dbl) : ws :=
  flat_map (fun i => (f i, VD (g i)) :: eflag b (fl i)) xs.
Definition coefl (h : handle) (xs ds : list Z) (g : Z -> Z -> Z -> Z -> dbl) : ws :=
  flat_map (fun i => flat_map (fun d => flat_map (fun k => flat_map (fun l =>
    [(Coef0L i d k l, VD (g i d k l))]) (zseq 0 (ncl h i))) (zseq 0 (c_n_elem (h_cfg h)))) ds) xs.

Definition writes (h : handle) (o : op) : ws :=
  let c := h_cfg h in let b := iib h in
  let nl := c_n_layers c in let nd := c_n_derivs c in
  let np i := kernel_n_params (xz (c_kernels c) i) in
  match o with
  | SetDoub x => [(DoubDTau, VD x); (FlDoub, VZ 1)]
  | SetPade s r => [(PadeS, VZ s); (PadeR, VZ r); (FlPade, VZ 1)]
  | SetSos n t e => [(SosMaxOs, VZ n); (SosMaxTau, VD t); (SosTol, VD e); (FlSos, VZ 1)]
  | SetFourierTol x => [(FourierTol, VD x); (FlFourierTol, VZ 1)]
  | SetLambda x => [(Lambda, VD x); (FlLambda, VZ 1)]
  | SetPlanetR x => [(PlanetR, VD x); (FlPlanetR, VZ 1)]
  | SetLevelsZ x => row (zseq 0 (nl + 1)) LevelsZ (xd x) ++ [(FlLevelsZ, VZ 1)]
  | SetOutLevels x =>
      flat_map (fun i => [(Ulevels i, VZ (xz x i))]) (zseq 0 (c_n_ulevels c)) ++ [(FlUlevels, VZ 1)]
  | SetFIsoTop x => [(FIsoTop, VD x); (FlFIsoTop, VZ 1)]
  | SetFIsoBot x => [(FIsoBot, VD x); (FlFIsoBot, VZ 1)]
  | SetFIsoTopL1 i x => [(FIsoTopL i, VD x)]
  | SetFIsoBotL1 i x => [(FIsoBotL i, VD x)]
  | SetFIsoTopLn x => row (zseq 0 nd) FIsoTopL (xd x)
  | SetFIsoBotLn x => row (zseq 0 nd) FIsoBotL (xd x)
  | SetF0 x => [(F0, VD x); (FlF0, VZ 1)]
  | SetPhi0 x => [(Phi0, VD x); (FlPhi0, VZ 1)]
  | SetLevelsB x => row (zseq 0 (nl + 1)) LevelsB (xd x) ++ [(FlLevelsB, VZ 1)]
  | SetLevelsBL1 j x => row (zseq 0 (nl + 1)) (fun i => LevelsBL i j) (xd x)
  | SetLevelsBLn x => grid (zseq 0 (nl + 1)) (zseq 0 nd) LevelsBL (fun i j => xd (xl x i) j)
  | SetSurfaceB x => [(SurfaceB, VD x); (FlSurfaceB, VZ 1)]
  | SetSurfaceBL1 j x => [(SurfaceBL j, VD x)]
  | SetSurfaceBLn x => row (zseq 0 nd) SurfaceBL (xd x)
  | SetCoefL11 i d x =>
      coefl h (zseq i (i + 1)) (zseq d (d + 1)) (fun _ _ k l => xd (xl x k) l)
  | SetCoefLn1 d x =>
      coefl h (zseq 0 nl) (zseq d (d + 1)) (fun i _ k l => xd (xl (xl x (i - 0)) k) l)
  | SetCoefL1n i x =>
      coefl h (zseq i (i + 1)) (zseq 0 nd) (fun _ j k l => xd (xl (xl x (j - 0)) k) l)
  | SetCoefLnn x =>
      coefl h (zseq 0 nl) (zseq 0 nd) (fun i j k l => xd (xl (xl (xl x (i - 0)) (j - 0)) k) l)
  | SetOmega1 i x =>
      rowf b (zseq i (i + 1)) Omega0 FlOmega (fun k => xd [x] (k - i))
      ++ row (zseq i (i + 1)) Omega0 (fun k => omega_adj (xd [x] (k - i)))
  | SetOmegan x =>
      rowf b (zseq 0 nl) Omega0 FlOmega (fun k => xd x (k - 0))
      ++ row (zseq 0 nl) Omega0 (fun k => omega_adj (xd x (k - 0)))
  | SetOmegaL11 i j x => grid (zseq i (i + 1)) (zseq j (j + 1)) Omega0L (fun _ _ => x)
  | SetOmegaLn1 j x => grid (zseq 0 nl) (zseq j (j + 1)) Omega0L (fun i _ => xd x (i - 0))
  | SetOmegaL1n i x => grid (zseq i (i + 1)) (zseq 0 nd) Omega0L (fun _ j => xd x (j - 0))
  | SetOmegaLnn x => grid (zseq 0 nl) (zseq 0 nd) Omega0L (fun i j => xd (xl x (i - 0)) (j - 0))
  | SetLtau1 i x => rowf b (zseq i (i + 1)) Ltau0 FlLtau (fun k => xd [x] (k - i))
  | SetLtaun x => rowf b (zseq 0 nl) Ltau0 FlLtau (fun k => xd x (k - 0))
  | SetLtauL11 i j x => grid (zseq i (i + 1)) (zseq j (j + 1)) Ltau0L (fun _ _ => x)
  | SetLtauLn1 j x => grid (zseq 0 nl) (zseq j (j + 1)) Ltau0L (fun i _ => xd x (i - 0))
  | SetLtauL1n i x => grid (zseq i (i + 1)) (zseq 0 nd) Ltau0L (fun _ j => xd x (j - 0))
  | SetLtauLnn x => grid (zseq 0 nl) (zseq 0 nd) Ltau0L (fun i j => xd (xl x (i - 0)) (j - 0))
  | SetKAmp i x => (KAmp i, VD x) :: eflag b (FlKAmp i)
  | SetKPar1 i j x => (KPar i j, VD x) :: eflag b (FlKPar i j)
  | SetKParn i x => rowf b (zseq 0 (np i)) (KPar i) (FlKPar i) (xd x)
  | SetKAmpL1 i d x => [(KAmpL i d, VD x)]
  | SetKAmpLn i x => row (zseq 0 nd) (KAmpL i) (xd x)
  | SetKParL11 i d p x => [(KParL i d p, VD x)]
  | SetKParL1n i d x => row (zseq 0 (np i)) (KParL i d) (xd x)
  | SetKParLn1 i p x => row (zseq 0 nd) (fun d => KParL i d p) (xd x)
  | SetKParLnn i x => grid (zseq 0 nd) (zseq 0 (np i)) (KParL i) (fun d p => xd (xl x d) p)
  | SetKFunc i f => (KFunc i, VZ f) :: eflag b (FlKFunc i)
  | _ => []
  end.

(** Dependency bits raised and the layers they are raised for. *)
Definition dbits (c : config) (o : op) : option (N * Z * Z) :=
  let nl := c_n_layers c in
  let all m := Some (m, 0, nl) in
  match o with
  | SetDoub _ => all DEP_DOUB_D_TAU
  | SetPade _ _ => all DEP_PADE_PARAMS
  | SetLambda _ => all DEP_LAMBDA
  | SetPlanetR _ => all DEP_PLANET_R
  | SetLevelsZ _ => all DEP_LEVELS_Z
  | SetOutLevels _ => all DEP_ULEVELS
  | SetFIsoTop _ => all DEP_F_ISO_TOP
  | SetFIsoTopL1 _ _ | SetFIsoTopLn _ => all DEP_F_ISO_TOP_L
  | SetFIsoBot _ => all DEP_F_ISO_BOT
  | SetFIsoBotL1 _ _ | SetFIsoBotLn _ => all DEP_F_ISO_BOT_L
  | SetF0 _ => all DEP_F_0
  | SetPhi0 _ => all DEP_PHI_0
  | SetLevelsB _ => all DEP_LEVELS_B
  | SetLevelsBL1 _ _ | SetLevelsBLn _ => all DEP_LEVELS_B_L
  | SetSurfaceB _ => all DEP_SURFACE_B
  | SetSurfaceBL1 _ _ | SetSurfaceBLn _ => all DEP_SURFACE_B_L
  | SetCoefL11 i _ _ | SetCoefL1n i _ => Some (coef_l_deps c, i, i + 1)
  | SetCoefLn1 _ _ | SetCoefLnn _ => all (coef_l_deps c)
  | SetOmega1 i _ => Some (omega_deps c, i, i + 1)
  | SetOmegan _ => all (omega_deps c)
  | SetOmegaL11 i _ _ | SetOmegaL1n i _ => Some (omega_l_deps c, i, i + 1)
  | SetOmegaLn1 _ _ | SetOmegaLnn _ => all (omega_l_deps c)
  | SetLtau1 i _ => Some (DEP_LTAU, i, i + 1)
  | SetLtaun _ => all DEP_LTAU
  | SetLtauL11 i _ _ | SetLtauL1n i _ => Some (DEP_LTAU_L, i, i + 1)
  | SetLtauLn1 _ _ | SetLtauLnn _ => all DEP_LTAU_L
  | SetKAmp _ _ | SetKPar1 _ _ _ | SetKParn _ _ | SetKFunc _ _ => all DEP_BRDF
  | SetKAmpL1 _ _ _ | SetKAmpLn _ _ | SetKParL11 _ _ _ _ | SetKParL1n _ _ _ | SetKParLn1 _ _ _
  | SetKParLnn _ _ => all DEP_BRDF_L
  | _ => None
  end.

Definition post (c : config) (o : op) (h : handle) : handle :=
  match dbits c o with Some (m, a, b) => dep_or m a b h | None => h end.

Definition effect (h : handle) (o : op) : handle := post (h_cfg h) o (apw (writes h o) h).

(* ------------------------------------------------------------------------- *)
(** * Proof                                                                   *)

Section Setters.
Variables cosd acosd : dbl -> dbl.

Ltac dims H :=
  let C := fresh "KC" in pose proof (k_cfg _ H) as C; apply cfg_dims in C;
  let G := fresh "KG" in pose proof (k_good _ H) as G.

Ltac unr := repeat match goal with H : in_range _ _ = true |- _ => rewrite in_range_iff in H end.

Lemma acch_intro h l : acc (h_alloc h) (h_live h) l = true -> acch h l. Proof. auto. Qed.

Lemma kernel_at_R {A} h i (k : Z -> M A) acc a h' : core h -> 0 <= i < c_n_kernels (h_cfg h) ->
  R h (k (xz (c_kernels (h_cfg h)) i)) acc a h' -> R h (t <- kernel_at i;; k t) acc a h'.
Proof.
  intros C Hi H. dims C. unfold kernel_at. apply R_assoc. apply R_cfg.
  eapply (R_ua 0); [|exact H]. rewrite (de_ks _ _ KC), (g_ks _ KG), <- (de_nk _ _ KC). auto.
Qed.

(** The omega setter stores, then reads back and adjusts. *)
Lemma adjust_for l : forall h (f : Z -> dbl), NoDup l ->
  (forall i, In i l -> acch h (Omega0 i) /\ h_mem h (Omega0 i) = Some (VD (f i))) ->
  for_ l (fun i => a <- rdD (Omega0 i);; wrD (Omega0 i) (omega_adj a)) h
  = Ret tt (apw (row l Omega0 (fun i => omega_adj (f i))) h).
Proof.
  induction l as [|i l IH]; intros h f ND H; cbn [for_].
  - unfold ret, row. cbn. now rewrite apw_nil.
  - inversion ND; subst. destruct (H i (or_introl eq_refl)) as [A E].
    rewrite bind_assoc. unfold bind at 1. rewrite (rdD_ok _ _ _ A E).
    unfold bind. unfold wrD, wr. unfold acch in A. rewrite A.
    change (mkH (h_cfg h) (h_alloc h) (upd (h_mem h) (Omega0 i) (VD (omega_adj (f i)))) (h_live h) (h_dep h))
      with (apw [(Omega0 i, VD (omega_adj (f i)))] h).
    rewrite (IH _ f); auto.
    intros j Hj. split; [apply (H j); now right|].
      rewrite apw_other; [apply (H j); now right|]. intros v [Q|[]]. injection Q as <- <-. auto.
Qed.

Lemma rowf_does h (x fl : Z -> loc) v i0 n0 : core h -> n0 - i0 <= len v ->
  (forall i, i0 <= i < n0 -> acch h (x i)) ->
  (forall i, i0 <= i < n0 -> iib h = true -> acch h (fl i)) ->
  (forall i, stable (x i) = false) -> (forall i, stable (fl i) = false) ->
  does h (set_layer_x x fl v i0 n0) (rowf (iib h) (zseq i0 n0) x fl (fun k => xd v (k - i0))).
Proof.
  intros C Hl A1 A2 S1 S2. unfold set_layer_x, rowf. apply does_for. intros i Hi.
  apply in_zseq in Hi. apply (does_ua d_zero); [lia|].
  change ((x i, VD (xd v (i - i0))) :: eflag (iib h) (fl i))
    with ([(x i, VD (xd v (i - i0)))] ++ eflag (iib h) (fl i)).
  apply does_seq.
  - apply does_wr; auto.
  - apply does_flag; auto. now apply core_ii.
Qed.

Lemma Romega h i0 n0 v acc : core h -> 0 <= i0 -> n0 <= c_n_layers (h_cfg h) -> n0 - i0 <= len v ->
  forall (k : M unit) h',
  R (apw (rowf (iib h) (zseq i0 n0) Omega0 FlOmega (fun k => xd v (k - i0))
                  ++ row (zseq i0 n0) Omega0 (fun k => omega_adj (xd v (k - i0)))) h) k true tt h' ->
  acc = true ->
  R h (set_layer_x Omega0 FlOmega v i0 n0;;
       for_ (zseq i0 n0) (fun i =>
         a <- rdD (Omega0 i);; wrD (Omega0 i) (singularity_adjust_down d_one a d_1em5));; k)
    acc tt h'.
Proof.
  intros C H0 Hn Hl k h' HR ->. dims C.
  assert (D : does h (set_layer_x Omega0 FlOmega v i0 n0)
                (rowf (iib h) (zseq i0 n0) Omega0 FlOmega (fun k => xd v (k - i0)))).
  { apply rowf_does; auto.
    - intros i Hi. apply in_range_iff. rewrite <- (de_nl _ _ KC). lia.
    - intros i Hi E. unfold acch. cbn. rewrite (k_live _ C BOmega), E. apply in_range_iff.
      rewrite <- (de_nl _ _ KC). lia. }
  eapply R_does; [exact D|].
  pose proof (adjust_for (zseq i0 n0)
    (apw (rowf (iib h) (zseq i0 n0) Omega0 FlOmega (fun k => xd v (k - i0))) h)
    (fun k => xd v (k - i0)) (zseq_nodup _ _)) as Q.
  unfold omega_adj at 1 in Q. erewrite bind_eq; [|apply Q].
  - rewrite <- apw_app. exact HR.
  - intros i Hi. split.
    + apply in_zseq in Hi. apply in_range_iff. cbn. rewrite <- (de_nl _ _ KC). lia.
    + apply apw_val.
      * unfold rowf. apply in_flat_map. exists i. split; auto. now left.
      * intros u Hu. unfold rowf in Hu. apply in_flat_map in Hu. destruct Hu as (j & Hj & [E|E]).
        -- now injection E as -> <-.
        -- unfold eflag in E. destruct (iib h); [destruct E as [E|[]]; discriminate|destruct E].
Qed.


Ltac prep C :=
  let KC := fresh "KC" in pose proof (cfg_dims _ _ (k_cfg _ C)) as KC;
  let KG := fresh "KG" in pose proof (k_good _ C) as KG;
  pose proof (de_nl _ _ KC); pose proof (de_nq _ _ KC); pose proof (de_nk _ _ KC);
  pose proof (de_nc _ _ KC); pose proof (de_nc2 _ _ KC); pose proof (de_ne _ _ KC);
  pose proof (de_nu _ _ KC); pose proof (de_num _ _ KC); pose proof (de_slv _ _ KC);
  pose proof (g_nl _ KG); pose proof (g_nk _ KG); pose proof (g_num _ KG); pose proof (g_nu _ KG);
  pose proof (g_nq _ KG); pose proof (g_nd _ KG); pose proof (g_ne _ KG); pose proof (g_nc _ KG).

Ltac post_derivs KC :=
  repeat match goal with
  | H : has_opt (h_cfg ?h) OPT_CALC_DERIVS = true |- _ =>
      lazymatch goal with
      | _ : has_opt (h_alloc h) OPT_CALC_DERIVS = true |- _ => fail
      | _ => let A := fresh "DA" in let B := fresh "DB" in
             destruct (de_der _ _ KC H) as [A B]
      end
  end.

Ltac acc1 C KC :=
  first
  [ solve [assumption]
  | match goal with
    | H : has_opt (h_cfg ?h) ?m = true |- has_opt (h_alloc ?h) ?m = true =>
        refine (eq_trans (eq_sym (opt_eq _ _ _ KC _)) H); discriminate
    | H : has_slv (h_cfg ?h) ?m = true |- has_slv (h_alloc ?h) ?m = true =>
        unfold has_slv in *; rewrite <- (de_slv _ _ KC); exact H
    | |- h_live _ _ = true => rewrite (k_live _ C);
        repeat match goal with H : iib _ = true |- _ => rewrite H end; cbn; lia
    | |- _ => lia
    end ].

Ltac acc_tac C KC :=
  unfold acch; cbn [acc]; unr; post_derivs KC;
  repeat match goal with
         | |- true = true => reflexivity
         | |- (_ && _) = true => apply andb_true_iff; split
         | |- in_range _ _ = true => apply in_range_iff
         end; try acc1 C KC.

Ltac chk C KC :=
  repeat match goal with
  | |- R _ (bind (need_opt _ _) _) _ _ _ => apply R_check; [apply pc_need_opt|intro]
  | |- R _ (bind (need_slv _ _) _) _ _ _ => apply R_check; [apply pc_need_slv|intro]
  | |- R _ (bind CHECK_INIT_FOR_DERIVS _) _ _ _ => apply R_check; [apply pc_derivs|intro]
  | |- R _ (bind (CHECK_INDEX_RANGE _ _ _) _) _ _ _ => apply R_check; [apply pc_index|intro]
  | |- R _ (bind (CHECK_N_KERNELS_NOT_ZERO _) _) _ _ _ => apply R_check; [apply pc_nk|intro]
  | |- R _ (bind (reject_if _ _) _) _ _ _ => apply R_check; [apply pc_reject|intro]
  | |- R _ (bind cfg _) _ _ _ => apply R_cfg
  | |- R _ (wrap _) _ _ _ => apply R_wrap
  | |- R _ (bind (ua _ _) _) _ _ _ => eapply (R_ua 0); [unr; lia|]
  | |- R _ (bind (kernel_at _) _) _ _ _ => apply kernel_at_R; [exact C|unr; lia|]
  | |- R _ (bind (for_ _ _) _) (forallb _ _ && _) _ _ =>
      apply R_check; [apply pc_for; let i := fresh "i" in let Hi := fresh "Hi" in
                      intros i Hi; apply in_zseq in Hi|intro]
  end.

Ltac wloop C KC :=
  repeat match goal with
  | |- does _ (for_ _ _) _ =>
      apply does_for; let i := fresh "i" in let Hi := fresh "Hi" in intros i Hi; apply in_zseq in Hi
  | |- does _ (bind (bind _ _) _) _ => fail 1
  | |- does _ (wrD _ _) _ => apply does_wr; [acc_tac C KC|reflexivity]
  | |- does _ (wrZ _ _) _ => apply does_wr; [acc_tac C KC|reflexivity]
  | |- does _ (set_elem_flag _) _ => apply does_flag; [now apply core_ii|intro; acc_tac C KC|reflexivity]
  end.

Ltac rd_start :=
  match goal with
  | |- R ?h _ true tt (effect ?h ?o) => refine (RD_start h _ (post (h_cfg h) o) (writes h o) _)
  end.
Ltac wloop1 C KC :=
  repeat match goal with
  | |- does _ (for_ _ _) _ =>
      apply does_for; let i := fresh "i" in let Hi := fresh "Hi" in intros i Hi; apply in_zseq in Hi
  | |- does _ (bind (ua _ _) _) _ => eapply does_ua; [unr; lia|]
  | |- does _ (wrD _ _) _ => apply does_wr; [acc_tac C KC|reflexivity]
  | |- does _ (wrZ _ _) _ => apply does_wr; [acc_tac C KC|reflexivity]
  | |- does _ (set_elem_flag _) _ => apply does_flag; [now apply core_ii|intro; acc_tac C KC|reflexivity]
  end.
Ltac rd_steps C KC :=
  repeat match goal with
  | |- RD _ _ (bind (wrD _ _) _) _ _ => eapply RD_step; [wloop C KC|]
  | |- RD _ _ (bind (wrZ _ _) _) _ _ => eapply RD_step; [wloop C KC|]
  | |- RD _ _ (bind (set_elem_flag _) _) _ _ => eapply RD_step; [wloop C KC|]
  end.
Ltac rd_go C KC := rd_start; rd_steps C KC.
Ltac rd_fin :=
  first [ apply RD_deps_all; cbn [app]; rewrite <- ?app_assoc; reflexivity
        | apply RD_deps; cbn [app]; rewrite <- ?app_assoc; reflexivity ].

Lemma does_row h (f : Z -> loc) x a n : 0 <= a -> n <= len x ->
  (forall i, a <= i < n -> acch h (f i)) -> (forall i, stable (f i) = false) ->
  does h (for_ (zseq a n) (fun i => v <- ua x i;; wrD (f i) v)) (row (zseq a n) f (xd x)).
Proof.
  intros Ha Hn A S. apply does_for. intros i Hi. apply in_zseq in Hi.
  apply (does_ua d_zero); [lia|]. apply does_wr; auto.
Qed.

Lemma does_grid h (f : Z -> Z -> loc) src g xs ys :
  (forall i j, In i xs -> In j ys -> acch h (f i j)) -> (forall i j, stable (f i j) = false) ->
  (forall i j, In i xs -> In j ys -> src i j = ret (g i j)) ->
  does h (for_ xs (fun i => for_ ys (fun j => a <- src i j;; wrD (f i j) a))) (grid xs ys f g).
Proof.
  intros A S E. apply does_for. intros i Hi. apply does_for. intros j Hj.
  rewrite E by auto. apply (does_wr h (f i j) (VD (g i j))); auto.
Qed.

Lemma simple_x_l h o (x : Z -> Z -> loc) deps src i0 n0 d0 m0 g acc0 : core h ->
  (forall i j, stable (x i j) = false) ->
  (forall i j, acc (h_alloc h) (h_live h) (x i j)
     = has_opt (h_alloc h) OPT_CALC_DERIVS && in_range i (c_n_layers (h_alloc h))
       && in_range j (c_n_derivs (h_alloc h))) ->
  (in_range i0 (c_n_layers (h_cfg h)) = true -> n0 <= c_n_layers (h_cfg h)) ->
  (in_range d0 (c_n_derivs (h_cfg h)) = true -> m0 <= c_n_derivs (h_cfg h)) ->
  (in_range i0 (c_n_layers (h_cfg h)) = true -> in_range d0 (c_n_derivs (h_cfg h)) = true ->
   forall i j, i0 <= i < n0 -> d0 <= j < m0 -> src (i - i0) (j - d0) = ret (g i j)) ->
  writes h o = grid (zseq i0 n0) (zseq d0 m0) x g ->
  dbits (h_cfg h) o = Some (deps (h_cfg h), i0, n0) ->
  acc0 = andl [has_opt (h_cfg h) OPT_CALC_DERIVS; in_range i0 (c_n_layers (h_cfg h));
               in_range d0 (c_n_derivs (h_cfg h))] ->
  R h (set_x_l x deps src i0 n0 d0 m0) acc0 tt (effect h o).
Proof.
  intros C S A Hn Hm Hs W D ->. prep C. unfold set_x_l. cbn [andl fold_right]. chk C KC.
  rd_start. unfold post. rewrite D, W. eapply RD_step.
  - unfold set_layer_x_l. apply (does_grid h x (fun i j => src (i - i0) (j - d0)) g); auto.
    + intros i j Hi Hj. apply in_zseq in Hi, Hj.
      match goal with H : in_range i0 _ = true |- _ => specialize (Hn H) end.
      match goal with H : in_range d0 _ = true |- _ => specialize (Hm H) end.
      unfold acch. rewrite A. acc_tac C KC.
    + intros i j Hi Hj. apply in_zseq in Hi, Hj. apply Hs; auto.
  - apply RD_deps. reflexivity.
Qed.

Lemma simple_coef_l h o src i0 n0 d0 m0 g acc0 : core h ->
  (in_range i0 (c_n_layers (h_cfg h)) = true -> n0 <= c_n_layers (h_cfg h)) ->
  (in_range d0 (c_n_derivs (h_cfg h)) = true -> m0 <= c_n_derivs (h_cfg h)) ->
  (in_range i0 (c_n_layers (h_cfg h)) = true -> in_range d0 (c_n_derivs (h_cfg h)) = true ->
   forall i j k l, i0 <= i < n0 -> d0 <= j < m0 -> 0 <= k < c_n_elem (h_cfg h) ->
     0 <= l < ncl h i -> src (i - i0) (j - d0) k l = ret (g i j k l)) ->
  writes h o = coefl h (zseq i0 n0) (zseq d0 m0) g ->
  dbits (h_cfg h) o = Some (coef_l_deps (h_cfg h), i0, n0) ->
  acc0 = andl [has_opt (h_cfg h) OPT_CALC_DERIVS; has_slv (h_cfg h) SOLVERS_USE_COEF;
               in_range i0 (c_n_layers (h_cfg h)); in_range d0 (c_n_derivs (h_cfg h))] ->
  R h (set_coef_x_l src i0 n0 d0 m0) acc0 tt (effect h o).
Proof.
  intros C Hn Hm Hs W D ->. prep C. unfold set_coef_x_l. cbn [andl fold_right]. chk C KC.
  match goal with H : in_range i0 _ = true |- _ => specialize (Hn H); specialize (Hs H) end.
  match goal with H : in_range d0 _ = true |- _ => specialize (Hm H); specialize (Hs H) end. unr.
  rd_start. unfold post. rewrite D, W. eapply RD_step.
  - unfold coefl. apply does_for. intros i Hi. apply does_for. intros j Hj.
    apply does_for. intros k Hk. apply in_zseq in Hi, Hj, Hk.
    destruct (k_ncl _ C i ltac:(lia)) as (n & En & Bn).
    assert (Enc : ncl h i = n) by (unfold ncl; now rewrite En).
    assert (L : does h (for_ (zseq 0 n) (fun l => a <- src (i - i0) (j - d0) k l;; wrD (Coef0L i j k l) a))
        (flat_map (fun l => [(Coef0L i j k l, VD (g i j k l))]) (zseq 0 (ncl h i)))).
    { rewrite Enc. apply does_for. intros l Hl. apply in_zseq in Hl.
      rewrite Hs by lia. apply (does_wr h (Coef0L i j k l) (VD (g i j k l))); [|reflexivity]. acc_tac C KC. }
    split; [apply L|]. intros h1 S1. erewrite bind_eq; [apply L, S1|].
    apply rdZ_ok.
    + unfold acch. rewrite (sim_alloc _ _ S1), (sim_live _ _ S1). cbn [acc]. acc_tac C KC.
    + rewrite (sim_mem _ _ S1); auto.
  - apply RD_deps. reflexivity.
Qed.

Lemma dn_one {A} (d x : A) i k : i <= k < i + 1 -> dn d [x] (k - i) = x.
Proof. intros H. unfold dn. now replace (Z.to_nat (k - i)) with 0%nat by lia. Qed.

Lemma simple_R h o : core h -> sized h o -> simple o = true ->
  R h (exec cosd acosd o) (accept (h_cfg h) o) [] (effect h o).
Proof.
  intros C SZ SM.
  destruct o; try discriminate SM; cbn [sized] in SZ; prep C;
    cbn [exec accept andl fold_right]; apply R_done.
  - unfold set_doub_d_tau. chk C KC. rd_go C KC. rd_fin.
  - unfold set_pade_params. chk C KC. rd_go C KC. rd_fin.
  - unfold set_sos_params. chk C KC. rd_go C KC. eapply RD_end; [wloop C KC|reflexivity].
  - unfold set_fourier_tol. chk C KC. rd_go C KC. eapply RD_end; [wloop C KC|reflexivity].
  - unfold set_lambda. chk C KC. rd_go C KC. rd_fin.
  - unfold set_planet_r. chk C KC. rd_go C KC. rd_fin.
  - unfold set_levels_z. chk C KC.
    + apply (pc_ua d_zero); [lia|]. apply (pc_ua d_zero); [lia|]. apply pc_reject.
    + rd_start. eapply RD_step; [apply does_row; [lia..| |reflexivity]; intros; acc_tac C KC|].
      rd_steps C KC. rd_fin.
  - unfold set_out_levels. chk C KC.
    + apply (pc_ua 0); [lia|]. apply (pc_ua 0); [lia|]. apply pc_reject.
    + apply (pc_ua 0); [lia|]. apply pc_reject.
    + rd_start. eapply RD_step.
      { apply does_for. intros i Hi. apply in_zseq in Hi. apply (does_ua 0); [lia|]. wloop C KC. }
      rd_steps C KC. rd_fin.
  - unfold set_F_iso_top. chk C KC. rd_go C KC. rd_fin.
  - unfold set_F_iso_top_l_1. chk C KC. rd_go C KC. rd_fin.
  - unfold set_F_iso_top_l_n. chk C KC. rd_start.
    eapply RD_step; [apply does_row; [lia..| |reflexivity]; intros; acc_tac C KC|]. rd_fin.
  - unfold set_F_iso_bot. chk C KC. rd_go C KC. rd_fin.
  - unfold set_F_iso_bot_l_1. chk C KC. rd_go C KC. rd_fin.
  - unfold set_F_iso_bot_l_n. chk C KC. rd_start.
    eapply RD_step; [apply does_row; [lia..| |reflexivity]; intros; acc_tac C KC|]. rd_fin.
  - unfold set_F_0. chk C KC. rd_go C KC. rd_fin.
  - reflexivity.
  - unfold set_levels_b. chk C KC.
    + apply (pc_ua d_zero); [lia|]. apply pc_reject.
    + rd_start. eapply RD_step; [apply does_row; [lia..| |reflexivity]; intros; acc_tac C KC|].
      rd_steps C KC. rd_fin.
  - unfold set_levels_b_l_1. chk C KC. rd_start.
    eapply RD_step; [apply (does_row h (fun i => LevelsBL i j)); [lia..| |reflexivity]; intros; acc_tac C KC|]. rd_fin.
  - unfold set_levels_b_l_n. chk C KC. rd_start. destruct SZ as [Z1 Z2].
    eapply RD_step.
    { apply does_for. intros i Hi. apply does_for. intros j Hj. apply in_zseq in Hi, Hj.
      apply (does_ua []); [lia|]. specialize (Z2 i ltac:(lia)).
      apply (does_ua d_zero); [unfold xl in *; lia|]. wloop C KC. }
    rd_fin.
  - unfold set_surface_b. chk C KC. rd_go C KC. rd_fin.
  - unfold set_surface_b_l_1. chk C KC. rd_go C KC. rd_fin.
  - unfold set_surface_b_l_n. chk C KC. rd_start.
    eapply RD_step; [apply does_row; [lia..| |reflexivity]; intros; acc_tac C KC|]. rd_fin.
  - apply R_wrap. unfold set_g_x. chk C KC.
    unfold has_slv, SOLVERS_USE_G, tst in *. rewrite N.land_0_r in *. discriminate.
  - apply R_wrap. unfold set_g_x_l. chk C KC.
    unfold has_slv, SOLVERS_USE_G, tst in *. rewrite N.land_0_r in *. discriminate.
  - apply R_wrap. eapply simple_coef_l; try reflexivity; auto; try (intro; unr; lia).
    intros. destruct SZ as [Z1 Z2]. cbv beta. rewrite (ua_ok []) by lia.
    specialize (Z2 k ltac:(lia)). replace i0 with i in * by lia.
    apply (ua_ok d_zero). unfold xl in *. lia.
  - apply R_cfg. apply R_wrap. eapply simple_coef_l; try reflexivity; auto; try (intro; unr; lia).
    intros. destruct SZ as [Z1 Z2]. cbv beta. rewrite (ua_ok []) by lia.
    destruct (Z2 i ltac:(lia)) as [Z3 Z4]. specialize (Z4 k ltac:(lia)).
    change (bind (ret (dn [] x (i - 0))) ?f) with (f (dn [] x (i - 0))). cbv beta. unfold xl in *.
    rewrite Z.sub_0_r in *. rewrite (ua_ok []) by lia. apply (ua_ok d_zero). lia.
  - apply R_cfg. apply R_wrap. eapply simple_coef_l; try reflexivity; auto; try (intro; unr; lia).
    intros. destruct SZ as [Z1 Z2]. cbv beta. rewrite (ua_ok []) by lia.
    destruct (Z2 j ltac:(lia)) as [Z3 Z4]. specialize (Z4 k ltac:(lia)).
    change (bind (ret (dn [] x (j - 0))) ?f) with (f (dn [] x (j - 0))). cbv beta. unfold xl in *.
    replace i0 with i in * by lia.
    rewrite Z.sub_0_r in *. rewrite (ua_ok []) by lia. apply (ua_ok d_zero). lia.
  - apply R_cfg. apply R_wrap. eapply simple_coef_l; try reflexivity; auto; try (intro; unr; lia).
    intros. destruct SZ as [Z1 Z2]. cbv beta. rewrite (ua_ok []) by lia.
    destruct (Z2 i ltac:(lia)) as [Z3 Z4]. destruct (Z4 j ltac:(lia)) as [Z5 Z6].
    specialize (Z6 k ltac:(lia)). unfold xl in *.
    change (bind (ret (dn [] x (i - 0))) ?f) with (f (dn [] x (i - 0))). cbv beta.
    rewrite !Z.sub_0_r in *. rewrite (ua_ok []) by lia.
    change (bind (ret (dn [] (dn [] x i) j)) ?f) with (f (dn [] (dn [] x i) j)). cbv beta.
    rewrite (ua_ok []) by lia. apply (ua_ok d_zero). lia.
  - (* omega *)
    apply R_wrap. unfold set_omega_x. chk C KC.
    + apply (pc_ua d_zero); [cbn; lia|]. apply pc_reject.
    + unr. apply Romega; auto; try lia; [cbn; lia|]. reflexivity.
  - apply R_cfg. apply R_wrap. unfold set_omega_x. chk C KC.
    + apply (pc_ua d_zero); [lia|]. apply pc_reject.
    + unr. apply Romega; auto; try lia. reflexivity.
  - apply R_wrap. apply (simple_x_l h _ Omega0L omega_l_deps (fun _ _ => ret x) i (i+1) j (j+1) (fun _ _ => x));
      auto; try (intro; unr; lia); try reflexivity.
  - apply R_cfg. apply R_wrap.
    apply (simple_x_l h _ Omega0L omega_l_deps (fun ii _ => ua x ii) 0 (c_n_layers (h_cfg h)) j (j+1) (fun ii _ => xd x (ii - 0)));
      auto; try (intro; unr; lia); try reflexivity. intros. apply (ua_ok d_zero). lia.
  - apply R_cfg. apply R_wrap.
    apply (simple_x_l h _ Omega0L omega_l_deps (fun _ jj => ua x jj) i (i+1) 0 (c_n_derivs (h_cfg h)) (fun _ jj => xd x (jj - 0)));
      auto; try (intro; unr; lia); try reflexivity. intros. apply (ua_ok d_zero). lia.
  - apply R_cfg. apply R_wrap.
    apply (simple_x_l h _ Omega0L omega_l_deps (fun ii jj => r <- ua x ii;; ua r jj) 0 (c_n_layers (h_cfg h)) 0 (c_n_derivs (h_cfg h)) (fun ii jj => xd (xl x (ii - 0)) (jj - 0)));
      auto; try (intro; unr; lia); try reflexivity. intros. destruct SZ as [Z1 Z2].
    rewrite (ua_ok []) by lia. specialize (Z2 i ltac:(lia)). rewrite Z.sub_0_r in *. apply (ua_ok d_zero).
    unfold xl in *. lia.
  - (* ltau *)
    apply R_wrap. unfold set_ltau_x. chk C KC.
    + apply (pc_ua d_zero); [cbn; lia|]. apply pc_reject.
    + unr. rd_start. eapply RD_step; [|rd_fin]. apply rowf_does; auto; [cbn; lia|intros; acc_tac C KC..].
  - apply R_cfg. apply R_wrap. unfold set_ltau_x. chk C KC.
    + apply (pc_ua d_zero); [lia|]. apply pc_reject.
    + unr. rd_start. eapply RD_step; [|rd_fin]. apply rowf_does; auto; [lia|intros; acc_tac C KC..].
  - apply R_wrap. apply (simple_x_l h _ Ltau0L ltau_l_deps (fun _ _ => ret x) i (i+1) j (j+1) (fun _ _ => x));
      auto; try (intro; unr; lia); try reflexivity.
  - apply R_cfg. apply R_wrap.
    apply (simple_x_l h _ Ltau0L ltau_l_deps (fun ii _ => ua x ii) 0 (c_n_layers (h_cfg h)) j (j+1) (fun ii _ => xd x (ii - 0)));
      auto; try (intro; unr; lia); try reflexivity. intros. apply (ua_ok d_zero). lia.
  - apply R_cfg. apply R_wrap.
    apply (simple_x_l h _ Ltau0L ltau_l_deps (fun _ jj => ua x jj) i (i+1) 0 (c_n_derivs (h_cfg h)) (fun _ jj => xd x (jj - 0)));
      auto; try (intro; unr; lia); try reflexivity. intros. apply (ua_ok d_zero). lia.
  - apply R_cfg. apply R_wrap.
    apply (simple_x_l h _ Ltau0L ltau_l_deps (fun ii jj => r <- ua x ii;; ua r jj) 0 (c_n_layers (h_cfg h)) 0 (c_n_derivs (h_cfg h)) (fun ii jj => xd (xl x (ii - 0)) (jj - 0)));
      auto; try (intro; unr; lia); try reflexivity. intros. destruct SZ as [Z1 Z2].
    rewrite (ua_ok []) by lia. specialize (Z2 i ltac:(lia)). rewrite Z.sub_0_r in *. apply (ua_ok d_zero).
    unfold xl in *. lia.
  - unfold set_kernel_ampfac. chk C KC. rd_go C KC. rd_fin.
  - unfold set_kernel_params_1. chk C KC. unr. pose proof (kernel_params_le_4 (xz (c_kernels (h_cfg h)) i)).
    rd_go C KC. rd_fin.
  - unfold set_kernel_params_n. chk C KC. unr. pose proof (kernel_params_le_4 (xz (c_kernels (h_cfg h)) i)).
    rd_start. eapply RD_step; [|rd_fin].
    apply does_for. intros j Hj. apply in_zseq in Hj. apply (does_ua d_zero); [lia|].
    apply (does_seq h (wrD _ _) (set_elem_flag _) [_]); wloop C KC.
  - unfold set_kernel_ampfac_l_1. chk C KC. rd_go C KC. rd_fin.
  - unfold set_kernel_ampfac_l_n. chk C KC. rd_start.
    eapply RD_step; [apply does_row; [lia..| |reflexivity]; intros; acc_tac C KC|]. rd_fin.
  - unfold set_kernel_params_l_11. chk C KC. unr. pose proof (kernel_params_le_4 (xz (c_kernels (h_cfg h)) i)).
    rd_go C KC. rd_fin.
  - unfold set_kernel_params_l_1n. chk C KC. unr. pose proof (kernel_params_le_4 (xz (c_kernels (h_cfg h)) i)).
    rd_start.
    eapply RD_step; [apply does_row; [lia..| |reflexivity]; intros; acc_tac C KC|]. rd_fin.
  - unfold set_kernel_params_l_n1. chk C KC. unr. pose proof (kernel_params_le_4 (xz (c_kernels (h_cfg h)) i)).
    rd_start.
    eapply RD_step; [apply (does_row h (fun d => KParL i d p)); [lia..| |reflexivity]; intros; acc_tac C KC|]. rd_fin.
  - unfold set_kernel_params_l_nn. chk C KC. unr. pose proof (kernel_params_le_4 (xz (c_kernels (h_cfg h)) i)).
    destruct SZ as [Z1 Z2].
    rd_start. eapply RD_step.
    { apply does_for. intros d Hd. apply does_for. intros p Hp. apply in_zseq in Hd, Hp.
      apply (does_ua []); [lia|]. specialize (Z2 d ltac:(lia)).
      apply (does_ua d_zero); [unfold xl in *; lia|]. wloop C KC. }
    rd_fin.
  - unfold set_kernel_func. chk C KC. rd_go C KC. rd_fin.
Qed.

End Setters.
