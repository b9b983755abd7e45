(** Which cells belong to which quantity, which calls write them and which getters read them. *)
From Coq Require Import ZArith NArith List Bool Lia SpecFloat.
From Verif Require Import Base OptionsModel Dbl HandleModel HandleTable HandleWp HandleSpec.
Import ListNotations.
Open Scope Z_scope.

Definition item_eq_dec : forall a b : item, {a = b} + {a <> b}.
Proof. decide equality; apply Z.eq_dec. Defined.
Definition item_eqb (a b : item) : bool := if item_eq_dec a b then true else false.
Lemma item_eqb_refl a : item_eqb a a = true.
Proof. unfold item_eqb. now destruct (item_eq_dec a a). Qed.
Lemma item_eqb_eq a b : item_eqb a b = true -> a = b.
Proof. unfold item_eqb. now destruct (item_eq_dec a b). Qed.

(** The quantity a cell belongs to. *)
Definition owner (l : loc) : option item :=
  match l with
  | DoubDTau | FlDoub => Some IDoub
  | PadeS | PadeR | FlPade => Some IPade
  | SosMaxOs | SosMaxTau | SosTol | FlSos => Some ISos
  | FourierTol | FlFourierTol => Some IFourierTol
  | Lambda | FlLambda => Some ILambda
  | PlanetR | FlPlanetR => Some IPlanetR
  | LevelsZ _ | FlLevelsZ => Some ILevelsZ
  | Ulevels _ | FlUlevels => Some IOutLevels
  | Utaus _ | FlUtaus => Some IOutTaus
  | Qx _ | FlUmus => Some IOutThetas
  | FIsoTop | FlFIsoTop => Some IFIsoTop
  | FIsoBot | FlFIsoBot => Some IFIsoBot
  | FIsoTopL d => Some (IFIsoTopL d) | FIsoBotL d => Some (IFIsoBotL d)
  | F0 | FlF0 => Some IF0
  | Mu00 | FlMu0 => Some ITheta0
  | Phi0 | FlPhi0 => Some IPhi0
  | LevelsB _ | FlLevelsB => Some ILevelsB
  | LevelsBL _ d => Some (ILevelsBL d)
  | SurfaceB | FlSurfaceB => Some ISurfaceB
  | SurfaceBL d => Some (ISurfaceBL d)
  | NCoefLayer i | NCoefLayer2 i | Coef0 i _ _ | FlCoef i => Some (ICoef i)
  | Coef0L i d _ _ => Some (ICoefL i d)
  | Omega0 i | FlOmega i => Some (IOmega i)
  | Omega0L i d => Some (IOmegaL i d)
  | Ltau0 i | FlLtau i => Some (ILtau i)
  | Ltau0L i d => Some (ILtauL i d)
  | KAmp i | FlKAmp i => Some (IKAmp i)
  | KAmpL i d => Some (IKAmpL i d)
  | KPar i j | FlKPar i j => Some (IKPar i j)
  | KParL i d p => Some (IKParL i d p)
  | KFunc i | FlKFunc i => Some (IKFunc i)
  | Mu0 | NFour2 | FlG _ | InputsInit | VariedUpd => None
  end.

Definition tch (o : op) (l : loc) : bool :=
  match owner l with
  | Some x => changes o x || match kind_of o, l with Solve, Ulevels _ | Solve2, Ulevels _ => true | _, _ => false end
  | None =>
      match l with
      | Mu0 | NFour2 => match o with SetTheta0 _ | SetOutThetas _ => true | _ => false end
      | InputsInit => match kind_of o with Solve => true | _ => false end
      | VariedUpd => match o with UpdateVaried => true | _ => false end
      | _ => false
      end
  end.

Definition reads (g : op) (l : loc) : bool :=
  match l with InputsInit => true | _ => false end ||
  match owner l, about g with
  | Some x, Some y => item_eqb x y
  | _, _ => false
  end ||
  match g, l with GetCoefL i _ _ _, NCoefLayer i' => i =? i' | _, _ => false end.

Section Frame.
Variables cosd acosd : dbl -> dbl.
Notation exec := (exec cosd acosd).

Ltac base :=
  cbn [tch owner changes kind_of]; rewrite ?Z.eqb_refl; try reflexivity;
  repeat match goal with
  | H : In ?k (zseq ?a (?a + 1)) |- _ => apply in_zseq in H; assert (k = a) by lia; subst k
  end; rewrite ?Z.eqb_refl; reflexivity.

Ltac onl := repeat first
  [ apply only_bind; [|intro] | apply only_ret | apply only_fail | apply only_undef | apply only_cfg
  | apply only_rd | apply only_rdZ | apply only_rdD | apply only_free | apply only_ua
  | apply only_when | apply only_reject | apply only_wrap | apply only_deps | apply only_idep
  | apply only_set_cfg | apply only_req
  | apply only_wr; unfold tch; base
  | apply only_for; intros
  | apply only_collect; intro
  | match goal with
    | |- only _ (if ?b then _ else _) => apply only_if
    | |- only _ (match ?x with _ => _ end) => destruct x
    | |- only _ (let _ := _ in _) => cbv zeta
    end
  | progress unfold wrZ, wrD, set_deps_all, set_elem_flag, one, done, need_opt, need_slv, CHECK_INIT_FOR_DERIVS,
      CHECK_INDEX_RANGE, CHECK_N_KERNELS_NOT_ZERO, GET_INPUTS_CHECK_SET_FLAGS, kernel_at, set_layer_x, set_layer_x_l ].

Lemma only_adjust S l : S Mu0 = true -> forall n, only S (adjust_loop l n).
Proof.
  intro H. induction l as [|i l IH]; intro n; cbn [adjust_loop].
  - apply only_ret.
  - repeat (apply only_bind; [onl|intro]). cbv zeta. apply only_if.
    + apply only_bind; [now apply only_wr|]. intros _. apply only_if; [apply only_fail|apply IH].
    + apply only_if; [apply only_fail|apply IH].
Qed.

Lemma only_mu0 S : S Mu0 = true -> only S mu_0_singularity_adjust.
Proof.
  intro H. unfold mu_0_singularity_adjust, wrD, set_deps_all.
  repeat (apply only_bind; [first [apply only_cfg|apply only_rdD|apply only_rdZ|now apply only_wr|now apply only_adjust]|intro]).
  onl.
Qed.

Lemma only_four2 S a b : S NFour2 = true -> only S (update_n_four2_m a b).
Proof.
  intro H. unfold update_n_four2_m, wrZ. repeat (apply only_bind; [|intro]); try (onl; fail).
  now apply only_wr.
Qed.

Lemma only_check S : S InputsInit = true -> only S check_inputs_initialized.
Proof.
  intro H. unfold check_inputs_initialized, wrZ. apply only_bind; [apply only_cfg|intro c].
  apply only_bind.
  - apply only_first_missing. intros m Hm. apply in_app_or in Hm as [Hm|Hm]; [|apply in_app_or in Hm as [Hm|Hm]].
    + unfold reqs_scalar in Hm. cbn [In] in Hm.
      repeat match goal with H : _ \/ _ |- _ => destruct H as [<-|H] end; try apply only_req. easy.
    + apply in_concat in Hm as (x & Hx & Hm). apply in_map_iff in Hx as (i & <- & _).
      unfold reqs_layer in Hm. cbn [In] in Hm.
      repeat match goal with H : _ \/ _ |- _ => destruct H as [<-|H] end; try apply only_req. easy.
    + apply in_map_iff in Hm as (i & <- & _). unfold reqs_kernel, kernel_at. apply only_first_missing. intros m Hm.
      cbn [In] in Hm. repeat match goal with H : _ \/ _ |- _ => destruct H as [<-|H] end; try easy; [apply only_req| |].
      * onl. apply only_first_missing. intros m Hm. apply in_map_iff in Hm as (j & <- & _). apply only_req.
      * onl.
  - intro r. apply only_if; [apply only_ret|].
    repeat (apply only_bind; [first [apply only_free|now apply only_wr|onl]|intro]). apply only_ret.
Qed.

Lemma only_sum S l : forall a, only S (sum_ltau l a).
Proof. induction l; intro a0; cbn [sum_ltau]; [apply only_ret|]. apply only_bind; [apply only_rdD|auto]. Qed.

Lemma only_post S : only S check_inputs_post_checks.
Proof.
  unfold check_inputs_post_checks. onl. apply only_sum.
Qed.

Lemma only_pre S : S InputsInit = true -> only S solution_preprocess.
Proof.
  intro H. unfold solution_preprocess. apply only_bind; [apply only_rdZ|intro].
  apply only_bind.
  - apply only_if; [|apply only_ret]. apply only_bind; [now apply only_check|]. intro. apply only_reject.
  - intros _. apply only_bind; [apply only_post|intro]. onl.
Qed.

Lemma only_getsol S fx e : (forall i, S (Ulevels i) = true) -> only S (get_solution fx e).
Proof.
  intro H. unfold get_solution. apply only_bind.
  - unfold read_inputs, read_coefs, read_kernel, kernel_at. onl.
  - intros _. apply only_bind; [apply only_cfg|intro c]. apply only_bind; [now apply only_nop|intros _].
    apply only_bind; [|intro; apply only_reject]. apply only_when, only_for. intros. now apply only_wr.
Qed.

Ltac onl2 := repeat first
  [ now apply only_check | now apply only_pre | now apply only_getsol
  | apply only_ret | apply only_cfg | apply only_rdZ | apply only_reject | apply only_wrap
  | apply only_if | apply only_wr; reflexivity | apply only_bind; [|intro]
  | progress unfold done, need_opt, CHECK_INDEX_RANGE, wrZ ].

Lemma only_exec o : only (tch o) (exec o).
Proof.
  destruct o; cbn [HandleModel.exec]; try solve
   [ unfold set_doub_d_tau, set_pade_params, set_sos_params, set_fourier_tol, set_lambda, set_planet_r, set_levels_z,
      set_out_levels, set_out_taus, set_F_iso_top, set_F_iso_top_l_1, set_F_iso_top_l_n, set_F_iso_bot, set_F_iso_bot_l_1,
      set_F_iso_bot_l_n, set_F_0, set_phi_0, set_levels_b, set_levels_b_l_1, set_levels_b_l_n, set_surface_b, set_surface_b_l_1,
      set_surface_b_l_n, set_g_x, set_g_x_l, set_coef_1, set_coef_n, set_coef_x, set_coef_l_11, set_coef_l_n1, set_coef_l_1n,
      set_coef_l_nn, set_coef_x_l, set_omega_1, set_omega_n, set_omega_x, set_x_l_11, set_x_l_n1, set_x_l_1n, set_x_l_nn, set_x_l,
      set_ltau_1, set_ltau_n, set_ltau_x, set_kernel_ampfac, set_kernel_params_1, set_kernel_params_n, set_kernel_ampfac_l_1,
      set_kernel_ampfac_l_n, set_kernel_params_l_11, set_kernel_params_l_1n, set_kernel_params_l_n1, set_kernel_params_l_nn,
      set_kernel_func, clear_saved, flux_divergence; onl
   | unfold get_doub_d_tau, get_pade_params, get_sos_params, get_fourier_tol, get_lambda, get_planet_r,
      get_levels_z, get_out_levels, get_out_taus, get_out_thetas, get_F_iso_top, get_F_iso_bot, get_F_iso_top_l, get_F_iso_bot_l,
      get_F_0, get_theta_0, get_phi_0, get_levels_b, get_levels_b_l, get_surface_b, get_surface_b_l, get_g_x, get_n_coef, get_coef,
      get_coef_l, get_omega, get_ltau, get_x_l, get_kernel_ampfac, get_kernel_params, get_kernel_ampfac_l, get_kernel_params_l,
      get_kernel, get_qx, getc; onl ].
  - unfold set_out_thetas. onl. now apply only_adjust.
  - unfold set_theta_0. onl. now apply only_adjust.
  - unfold update_varied_layers. onl2.
  - unfold solution. onl2.
  - unfold radiance, solution. onl2.
  - unfold mean_radiance, solution. onl2.
  - unfold flux, solution. onl2.
  - unfold local_query. onl2.
Qed.

(** ** Getters change nothing and depend only on their own quantity. *)
Ltac loc_ := repeat first
  [ apply local_ret | apply local_fail | apply local_undef | apply local_cfg
  | apply local_rd; unfold reads; cbn [owner about orb]; rewrite ?item_eqb_refl, ?Z.eqb_refl; reflexivity
  | apply local_rdZ; unfold reads; cbn [owner about orb]; rewrite ?item_eqb_refl, ?Z.eqb_refl, ?orb_true_r; reflexivity
  | apply local_rdD; unfold reads; cbn [owner about orb]; rewrite ?item_eqb_refl, ?Z.eqb_refl; reflexivity
  | apply local_ua | apply local_reject
  | apply local_collect; intros
  | match goal with |- local _ (bind _ _) => apply local_bind; [|intro] end
  | match goal with |- local _ (if ?b then _ else _) => apply local_if end ].

Lemma local_getter g : kind_of g = Getter -> local (reads g) (exec g).
Proof.
  destruct g; try discriminate; intros _; cbn [HandleModel.exec];
    unfold get_doub_d_tau, get_pade_params, get_sos_params, get_fourier_tol, get_lambda, get_planet_r,
      get_levels_z, get_out_levels, get_out_taus, get_out_thetas, get_F_iso_top, get_F_iso_bot, get_F_iso_top_l, get_F_iso_bot_l,
      get_F_0, get_theta_0, get_phi_0, get_levels_b, get_levels_b_l, get_surface_b, get_surface_b_l, get_g_x, get_n_coef, get_coef,
      get_coef_l, get_omega, get_ltau, get_x_l, get_kernel_ampfac, get_kernel_params, get_kernel_ampfac_l, get_kernel_params_l,
      get_kernel, get_qx, getc, one, need_opt, need_slv, CHECK_INDEX_RANGE, CHECK_N_KERNELS_NOT_ZERO, GET_INPUTS_CHECK_SET_FLAGS, kernel_at;
    loc_.
Qed.

Lemma getter_pure g h : kind_of g = Getter ->
  match exec g h with Ret _ h' | Fail _ h' => h' = h | Undef => True end.
Proof. intro K. apply (proj1 (local_getter g K)). Qed.

(** ** Setters leave configuration and blocks alone. *)
Ltac kps := repeat first
  [ apply keeps_bind; [|intro] | apply keeps_ret | apply keeps_fail | apply keeps_undef | apply keeps_cfg
  | apply keeps_rd | apply keeps_rdZ | apply keeps_rdD | apply keeps_wr | apply keeps_ua
  | apply keeps_when | apply keeps_reject | apply keeps_wrap | apply keeps_deps | apply keeps_idep
  | apply keeps_for; intro
  | match goal with
    | |- keeps (if ?b then _ else _) => apply keeps_if
    | |- keeps (match ?x with _ => _ end) => destruct x
    end ].

Lemma keeps_adjust l : forall n, keeps (adjust_loop l n).
Proof.
  induction l as [|i l IH]; intro n; cbn [adjust_loop].
  - apply keeps_ret.
  - repeat (apply keeps_bind; [kps|intro]). cbv zeta. apply keeps_if.
    + apply keeps_bind; [apply keeps_wr|]. intros _. apply keeps_if; [apply keeps_fail|apply IH].
    + apply keeps_if; [apply keeps_fail|apply IH].
Qed.

Lemma keeps_setter s : kind_of s = Setter \/ kind_of s = Clear -> keeps (exec s).
Proof.
  destruct s; intros [K|K]; try discriminate K; cbn [HandleModel.exec];
   unfold set_doub_d_tau, set_pade_params, set_sos_params, set_fourier_tol, set_lambda, set_planet_r, set_levels_z,
      set_out_levels, set_out_taus, set_out_thetas, set_theta_0, set_F_iso_top, set_F_iso_top_l_1, set_F_iso_top_l_n, set_F_iso_bot, set_F_iso_bot_l_1,
      set_F_iso_bot_l_n, set_F_0, set_phi_0, set_levels_b, set_levels_b_l_1, set_levels_b_l_n, set_surface_b, set_surface_b_l_1,
      set_surface_b_l_n, set_g_x, set_g_x_l, set_coef_1, set_coef_n, set_coef_x, set_coef_l_11, set_coef_l_n1, set_coef_l_1n,
      set_coef_l_nn, set_coef_x_l, set_omega_1, set_omega_n, set_omega_x, set_x_l_11, set_x_l_n1, set_x_l_1n, set_x_l_nn, set_x_l,
      set_ltau_1, set_ltau_n, set_ltau_x, set_kernel_ampfac, set_kernel_params_1, set_kernel_params_n, set_kernel_ampfac_l_1,
      set_kernel_ampfac_l_n, set_kernel_params_l_11, set_kernel_params_l_1n, set_kernel_params_l_n1, set_kernel_params_l_nn,
      set_kernel_func, clear_saved, mu_0_singularity_adjust, update_n_four2_m,
      set_layer_x, set_layer_x_l, set_elem_flag, wrZ, wrD, set_deps_all, done, need_opt, need_slv, CHECK_INIT_FOR_DERIVS,
      CHECK_INDEX_RANGE, CHECK_N_KERNELS_NOT_ZERO, kernel_at; kps; apply keeps_adjust.
Qed.

(** ** Frame *)
Lemma tch_reads s g l x : kind_of s = Setter \/ kind_of s = Clear -> about g = Some x -> changes s x = false ->
  reads g l = true -> tch s l = false.
Proof.
  intros K A C R. unfold reads in R. rewrite A in R. unfold tch.
  assert (NS : kind_of s <> Solve /\ kind_of s <> Solve2) by (destruct K as [-> | ->]; split; discriminate).
  apply orb_true_iff in R as [R|R]; [apply orb_true_iff in R as [R|R]|].
  - destruct l; try discriminate R. cbn. destruct NS as [N _]. destruct (kind_of s); congruence.
  - destruct (owner l) as [y|] eqn:O; [|discriminate]. apply item_eqb_eq in R. subst y. rewrite C. cbn.
    destruct (kind_of s), l; auto; destruct NS; congruence.
  - destruct g; try discriminate R. destruct l; try discriminate R. apply Z.eqb_eq in R. subst.
    cbn in A. injection A as <-. cbn [owner].
    replace (changes s (ICoef i0)) with false; [destruct (kind_of s); reflexivity|].
    destruct s; cbn in C |- *; auto; discriminate.
Qed.

Lemma cfg_getter_reads g : kind_of g = Getter -> about g = None -> forall l, reads g l = true -> l = InputsInit.
Proof.
  intros K A l R. unfold reads in R. rewrite A in R. destruct g; try discriminate; destruct l; try reflexivity;
    cbn in R; discriminate.
Qed.

Lemma frame s g h h' : kind_of s = Setter \/ kind_of s = Clear -> kind_of g = Getter ->
  (forall x, about g = Some x -> changes s x = false) ->
  (exists v, exec s h = Ret v h') \/ (exists e, exec s h = Fail e h') ->
  answer (exec g h') = answer (exec g h).
Proof.
  intros K G C E. apply (proj2 (local_getter g G)).
  pose proof (only_exec s h) as O. pose proof (keeps_setter s K h) as KP.
  assert (X : (forall l, tch s l = false -> h_mem h' l = h_mem h l)
              /\ h_cfg h' = h_cfg h /\ h_alloc h' = h_alloc h /\ h_live h' = h_live h).
  { destruct E as [(v & E)|(v & E)]; rewrite E in O, KP; auto. }
  destruct X as (O' & E1 & E2 & E3). repeat split; auto. intros l R. apply O'.
  destruct (about g) as [x|] eqn:A.
  - eapply tch_reads; eauto.
  - rewrite (cfg_getter_reads g G A l R). cbn. destruct K as [K|K]; now rewrite K.
Qed.
End Frame.
