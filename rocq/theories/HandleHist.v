(** One API call, all kinds: what it preserves; and histories of calls. *)
From Coq Require Import ZArith NArith List Bool Lia SpecFloat.
From Verif Require Import Base OptionsModel OptionsSpec OptionsProofs Dbl HandleModel HandleTable HandleWp
  HandleSetters HandleInv HandleSteps HandleGetters HandleSpec HandleFrame HandleGate HandleSolve.
Import ListNotations.
Open Scope Z_scope.

(* ------------------------------------------------------------------------- *)
(** * Memory relations kept by every run                                      *)

Definition memory := loc -> option val.

Section Tr.
Variable R : memory -> memory -> Prop.
Variable R0 : forall m, R m m.
Variable RT : forall a b c, R a b -> R b c -> R a c.

Definition tr {A} (m : M A) : Prop :=
  forall h, match m h with Ret _ h' | Fail _ h' => R (h_mem h) (h_mem h') | Undef => True end.
Definition trF {A} (m : M A) : Prop :=
  forall h, match m h with Fail _ h' => R (h_mem h) (h_mem h') | _ => True end.

Lemma tr_bind {A B} (m : M A) (k : A -> M B) : tr m -> (forall a, tr (k a)) -> tr (bind m k).
Proof.
  intros H1 H2 h. unfold bind. specialize (H1 h). destruct (m h) as [a h'|e h'|]; auto.
  specialize (H2 a h'). destruct (k a h'); eauto.
Qed.
Lemma trF_bind {A B} (m : M A) (k : A -> M B) : tr m -> (forall a, trF (k a)) -> trF (bind m k).
Proof.
  intros H1 H2 h. unfold bind. specialize (H1 h). destruct (m h) as [a h'|e h'|]; auto.
  specialize (H2 a h'). destruct (k a h'); eauto.
Qed.
Lemma tr_only {A} (m : M A) : only (fun _ => false) m -> (forall a b, (forall l, b l = a l) -> R a b) -> tr m.
Proof. intros H E h. specialize (H h). destruct (m h); auto. Qed.
Lemma tr_wr l v : (forall a, R a (upd a l v)) -> tr (wr l v).
Proof. intros H h. unfold wr. destruct acc; auto. apply H. Qed.
Lemma tr_for {A} (l : list A) body : (forall i, tr (body i)) -> tr (for_ l body).
Proof. intro H. induction l; cbn [for_]; [intro h; apply R0|apply tr_bind; auto]. Qed.
Lemma tr_if {A} (b : bool) (m1 m2 : M A) : tr m1 -> tr m2 -> tr (if b then m1 else m2).
Proof. destruct b; auto. Qed.
Lemma tr_wrap {A} (m : M A) : tr m -> tr (wrap m).
Proof. intros H h. unfold wrap. specialize (H h). destruct (m h); auto. Qed.
Lemma trF_wrap {A} (m : M A) : trF m -> trF (wrap m).
Proof. intros H h. unfold wrap. specialize (H h). destruct (m h); auto. Qed.
Lemma tr_nop {A} (m : M A) : (forall h, match m h with Ret _ h' | Fail _ h' => h_mem h' = h_mem h | _ => True end) -> tr m.
Proof. intros H h. specialize (H h). destruct (m h); auto; rewrite H; apply R0. Qed.
Lemma tr_rd l : tr (rd l).
Proof. apply tr_nop. intro h. unfold rd. destruct acc; auto. destruct (h_mem h l); auto. Qed.
Lemma tr_rdZ l : tr (rdZ l).
Proof. unfold rdZ. apply tr_bind; [apply tr_rd|]. intros []; now apply tr_nop. Qed.
Lemma tr_rdD l : tr (rdD l).
Proof. unfold rdD. apply tr_bind; [apply tr_rd|]. intros []; now apply tr_nop. Qed.
Lemma tr_ua {A} (x : list A) i : tr (ua x i).
Proof. unfold ua. destruct (i <? 0); [now apply tr_nop|]. destruct nth_error; now apply tr_nop. Qed.
Lemma tr_free b : tr (free b).
Proof. apply tr_nop. intro h. unfold free. destruct (h_live h b); auto. Qed.
Lemma tr_reject b e : tr (reject_if b e).
Proof. unfold reject_if. destruct b; now apply tr_nop. Qed.
Lemma tr_collect {A} (l : list A) body : (forall i, tr (body i)) -> tr (collect l body).
Proof.
  intro H. induction l; cbn [collect]; [now apply tr_nop|].
  apply tr_bind; auto. intro. apply tr_bind; auto. intro. now apply tr_nop.
Qed.
Lemma tr_adjust l : (forall v, tr (wr Mu0 v)) -> forall n, tr (adjust_loop l n).
Proof.
  intro H. induction l as [|i l IH]; intro n; cbn [adjust_loop].
  - now apply tr_nop.
  - apply tr_bind; [apply tr_rdD|intro]. apply tr_bind; [apply tr_rdD|intro]. cbv zeta. apply tr_if.
    + apply tr_bind; [apply H|]. intros _. apply tr_if; [now apply tr_nop|apply IH].
    + apply tr_if; [now apply tr_nop|apply IH].
Qed.
End Tr.

Definition nofail {A} (m : M A) : Prop := forall h, match m h with Fail _ _ => False | _ => True end.
Lemma nofail_bind {A B} (m : M A) (k : A -> M B) : nofail m -> (forall a, nofail (k a)) -> nofail (bind m k).
Proof. intros H1 H2 h. unfold bind. specialize (H1 h). destruct (m h); auto. apply H2. Qed.
Lemma nofail_wr l v : nofail (wr l v). Proof. intro h. unfold wr. now destruct acc. Qed.
Lemma nofail_rdZ l : nofail (rdZ l).
Proof. intro h. unfold rdZ, bind, rd. destruct acc; auto. destruct (h_mem h l) as [[]|]; exact Logic.I. Qed.
Lemma nofail_flag f : nofail (set_elem_flag f).
Proof. apply nofail_bind; [apply nofail_rdZ|]. intro z. destruct (negb _); [apply nofail_wr|]. easy. Qed.
Lemma nofail_trF {A} R (m : M A) : nofail m -> trF R m.
Proof. intros H h. specialize (H h). destruct (m h); auto. easy. Qed.

(** Flags unchanged. *)
Definition Rflags (a b : memory) : Prop := forall f, isflag f = true -> b f = a f.
Lemma Rflags0 m : Rflags m m. Proof. easy. Qed.
Lemma RflagsT a b c : Rflags a b -> Rflags b c -> Rflags a c.
Proof. intros H1 H2 f F. now rewrite H2, H1. Qed.
(** Flags only set. *)
Definition Rup (a b : memory) : Prop := forall f, isflag f = true -> b f = a f \/ b f = Some (VZ 1).
Lemma Rup0 m : Rup m m. Proof. intros f _. auto. Qed.
Lemma RupT a b c : Rup a b -> Rup b c -> Rup a c.
Proof. intros H1 H2 f F. destruct (H2 f F) as [->|E]; auto. Qed.
Lemma Rup_wr1 a l : Rup a (upd a l (VZ 1)).
Proof. intros f _. unfold upd. destruct (loc_eq_dec l f); auto. Qed.
Lemma Rup_wr a l v : isflag l = false -> Rup a (upd a l v).
Proof. intros N f F. left. apply upd_other. congruence. Qed.
Lemma Rflags_wr a l v : isflag l = false -> Rflags a (upd a l v).
Proof. intros N f F. apply upd_other. congruence. Qed.

Ltac trs R0 RT W := repeat first
  [ apply (tr_rd _ R0) | apply (tr_rdZ _ R0 RT) | apply (tr_rdD _ R0 RT) | apply (tr_ua _ R0)
  | apply (tr_free _ R0) | apply (tr_reject _ R0)
  | apply tr_wr; W
  | apply (tr_for _ R0 RT); intros
  | apply (tr_collect _ R0 RT); intro
  | match goal with
    | |- tr _ (wrap _) => apply tr_wrap
    | |- tr _ (bind _ _) => apply (tr_bind _ RT); [|intro]
    | |- tr _ (if ?b then _ else _) => apply tr_if
    | |- tr _ (match ?x with _ => _ end) => destruct x
    end
  | now apply (tr_nop _ R0) ].

Section Hist.
Variables cosd acosd : dbl -> dbl.
Notation inv := (inv cosd).
Notation exec := (exec cosd acosd).

Ltac upw := first [intro; apply Rup_wr1 | intro; apply Rup_wr; reflexivity].
Lemma flags_up o : kind_of o = Setter \/ kind_of o = Clear -> tr Rup (exec o).
Proof.
  destruct o; intros [K|K]; try discriminate K; cbn [HandleModel.exec];
   unfold set_doub_d_tau, set_pade_params, set_sos_params, set_fourier_tol, set_lambda, set_planet_r, set_levels_z,
      set_out_levels, set_out_taus, set_out_thetas, set_theta_0, set_F_iso_top, set_F_iso_top_l_1, set_F_iso_top_l_n, set_F_iso_bot, set_F_iso_bot_l_1,
      set_F_iso_bot_l_n, set_F_0, set_phi_0, set_levels_b, set_levels_b_l_1, set_levels_b_l_n, set_surface_b, set_surface_b_l_1,
      set_surface_b_l_n, set_g_x, set_g_x_l, set_coef_1, set_coef_n, set_coef_x, set_coef_l_11, set_coef_l_n1, set_coef_l_1n,
      set_coef_l_nn, set_coef_x_l, set_omega_1, set_omega_n, set_omega_x, set_x_l_11, set_x_l_n1, set_x_l_1n, set_x_l_nn, set_x_l,
      set_ltau_1, set_ltau_n, set_ltau_x, set_kernel_ampfac, set_kernel_params_1, set_kernel_params_n, set_kernel_ampfac_l_1,
      set_kernel_ampfac_l_n, set_kernel_params_l_11, set_kernel_params_l_1n, set_kernel_params_l_n1, set_kernel_params_l_nn,
      set_kernel_func, clear_saved, mu_0_singularity_adjust, update_n_four2_m,
      set_layer_x, set_layer_x_l, set_elem_flag, wrZ, wrD, set_deps_all, done, when, need_opt, need_slv, CHECK_INIT_FOR_DERIVS,
      CHECK_INDEX_RANGE, CHECK_N_KERNELS_NOT_ZERO, kernel_at; trs Rup0 RupT upw;
   apply (tr_adjust _ Rup0 RupT); intro; apply tr_wr; upw.
Qed.

(** Which rejected setters may have set a flag. *)
Definition torn (o : op) : bool := match o with SetOutThetas _ | SetCoefn _ _ => true | _ => false end.

Lemma nofail_ret {A} (a : A) : nofail (ret a). Proof. easy. Qed.
Lemma nofail_deps m a b : nofail (set_deps m a b). Proof. easy. Qed.
Lemma nofail_cfg : nofail cfg. Proof. easy. Qed.
Lemma trF_then {A B} R (m : M A) (k : A -> M B) : trF R m -> (forall a, nofail (k a)) -> trF R (bind m k).
Proof.
  intros H1 H2 h. unfold bind. specialize (H1 h). destruct (m h) as [a h'|e h'|]; auto.
  specialize (H2 a h'). destruct (k a h'); auto. easy.
Qed.

Ltac flw := intro; apply Rflags_wr; reflexivity.
Ltac nof := repeat first [apply nofail_wr|apply nofail_rdZ|apply nofail_flag|apply nofail_ret|apply nofail_deps|apply nofail_cfg
  |apply nofail_bind; [|intro]].
Ltac seqF := apply (trF_bind _ RflagsT); [trs Rflags0 RflagsT flw|intro].

Lemma tr_adj_flags l n : tr Rflags (adjust_loop l n).
Proof. apply (tr_adjust _ Rflags0 RflagsT); intro; apply tr_wr; flw. Qed.

Lemma torn_not o : kind_of o = Setter -> simple o = false -> torn o = false -> trF Rflags (exec o).
Proof.
  destruct o; intros K S T; try discriminate; cbn [HandleModel.exec]; unfold done; apply trF_then; try (intros; nof; fail).
  - unfold set_out_taus, need_opt, wrZ, wrD, set_deps_all.
    seqF. seqF. seqF. apply nofail_trF. nof.
  - unfold set_theta_0, need_opt, wrZ, wrD, set_deps_all, update_n_four2_m, mu_0_singularity_adjust, when.
    seqF. seqF. seqF. seqF. apply (trF_bind _ RflagsT); [unfold wrZ; trs Rflags0 RflagsT flw|intro].
    apply (trF_bind _ RflagsT); [unfold wrD, set_deps_all; trs Rflags0 RflagsT flw; apply tr_adj_flags|intro].
    apply nofail_trF. nof.
  - unfold set_coef_1, set_coef_x. apply trF_wrap. rewrite zseq_one. unfold need_slv, CHECK_INDEX_RANGE.
    seqF. seqF. seqF. seqF. apply trF_then; [|intro; nof]. cbn [for_]. apply trF_then; [|intro; nof].
    unfold wrZ, wrD. seqF. seqF. seqF. seqF. apply nofail_trF. nof.
Qed.

(* ------------------------------------------------------------------------- *)
(** * One call                                                                *)

Definition steps (h : handle) (o : op) (ok : bool) (h' : handle) : Prop :=
  if ok then exists v, exec o h = Ret v h' else exists e, exec o h = Fail e h'.

(** What a call that runs a solver may change. *)
Definition SR (h h' : handle) : Prop :=
  inv h' /\ h_cfg h' = h_cfg h /\ h_alloc h' = h_alloc h /\ (iib h = false -> iib h' = false) /\
  forall l, l <> InputsInit -> l <> VariedUpd ->
    (has_opt (h_alloc h) OPT_OUTPUT_AT_LEVELS = true \/ forall i, l <> Ulevels i) -> h_mem h' l = h_mem h l.

Ltac srs := unfold SR; refine (conj _ (conj _ (conj _ (conj _ _)))).
Lemma SR_refl h : inv h -> SR h h. Proof. intro HI. unfold SR. split; [exact HI|]. auto. Qed.
Lemma SR_trans a b c : SR a b -> SR b c -> SR a c.
Proof.
  intros (A1 & A2 & A3 & A4 & A5) (B1 & B2 & B3 & B4 & B5). unfold SR.
  split; [exact B1|]. split; [congruence|]. split; [congruence|]. split; [auto|]. intros l L1 L2 L3. rewrite B5; auto. now rewrite A3.
Qed.
Lemma SR_gated h h1 : inv h -> inv h1 -> gated h h1 -> iib h1 = false -> SR h h1.
Proof.
  intros I I1 G B. unfold gated in G. destruct (iib h) eqn:E.
  - destruct G as (E1 & E2 & E3 & E4 & E5). srs; auto. intros l L _ _. rewrite E4. apply upd_other. congruence.
  - subst. now apply SR_refl.
Qed.
Lemma SR_solved h h1 : solved cosd h h1 -> SR h h1.
Proof.
  intros (S1 & S2 & S3 & S4 & S5). srs; auto.
  intro B. unfold iib in *. rewrite S5; auto. right. discriminate.
Qed.

Lemma pre_SR h : inv h ->
  match solution_preprocess h with Ret _ h1 => SR h h1 /\ iib h1 = false | Fail _ h1 => SR h h1 | Undef => False end.
Proof.
  intro I. destruct (gate_ok cosd h I) as [[B N]|(h1 & G & I1 & B1 & E)].
  - rewrite (pre_miss cosd h I B N). now apply SR_refl.
  - rewrite (pre_ok cosd h h1 I G I1 B1 E). pose proof (SR_gated _ _ I I1 G B1). destruct (_ && _); auto.
Qed.

Definition tr_SR {A} (m : M A) (h : handle) : Prop :=
  match m h with Ret _ h1 | Fail _ h1 => SR h h1 | Undef => True end.

Lemma SR_wrap {A} (m : M A) h : tr_SR m h -> tr_SR (wrap m) h.
Proof. unfold tr_SR, wrap. destruct (m h); auto. Qed.
Lemma SR_done (m : M unit) h : tr_SR m h -> tr_SR (done m) h.
Proof. unfold tr_SR, done, bind. destruct (m h) as [[] ?|? ?|]; auto. Qed.

Lemma getsol_SR h fx e : inv h -> tr_SR (get_solution fx e) h.
Proof.
  intro I. unfold tr_SR. destruct (get_solution_part cosd h fx e I) as [-> | (h' & S & ->)]; auto.
  destruct (fx_ok fx); now apply SR_solved.
Qed.

Lemma solution_SR h s o n fx : inv h -> tr_SR (solution s o n fx) h.
Proof.
  intro I. unfold solution, tr_SR.
  assert (RJ : forall b e (m : M unit), (match m h with Ret _ h1 | Fail _ h1 => SR h h1 | Undef => True end) ->
     match (reject_if b e;; m) h with Ret _ h1 | Fail _ h1 => SR h h1 | Undef => True end).
  { intros b e m H. unfold reject_if. destruct b; [now apply SR_refl|exact H]. }
  apply RJ. rewrite (bind_eq cfg _ h (h_cfg h) h eq_refl). do 6 apply RJ.
  pose proof (pre_SR h I) as P. unfold bind. destruct (solution_preprocess h) as [[] h1|? h1|]; auto.
  destruct P as [P _]. pose proof (getsol_SR h1 fx EInt (proj1 P)) as G. unfold tr_SR in G.
  destruct (get_solution fx EInt h1); eauto using SR_trans.
Qed.

Lemma varied_SR h : inv h -> tr_SR update_varied_layers h.
Proof.
  intro I. unfold update_varied_layers, tr_SR, need_opt. rewrite bind_assoc.
  rewrite (bind_eq cfg _ h (h_cfg h) h eq_refl). unfold reject_if at 1.
  destruct (negb _); [now apply SR_refl|]. erewrite bind_eq by reflexivity.
  destruct (iib_rd cosd h I) as (z & E & Bz). rewrite (bind_eq _ _ _ _ _ E), Bz.
  assert (W : forall h1, inv h1 -> SR h h1 -> match wrZ VariedUpd 0 h1 with Ret _ h2 | Fail _ h2 => SR h h2 | Undef => True end).
  { intros h1 I1 S1. eapply SR_trans; [exact S1|]. srs; auto.
    - apply (inv_wr cosd h1 VariedUpd (VZ 0)); [exact I1|cbn; auto|congruence|intro X; discriminate X].
    - intros l L1 L2 _. cbn [h_mem]. apply upd_other. congruence. }
  destruct (gate_ok cosd h I) as [[B N]|(h1 & G & I1 & B1 & E1)].
  - rewrite B. destruct (check_ok cosd h I B) as [[_ E1]|(Z0 & _)]; [|congruence].
    unfold bind. rewrite E1. apply Z.eqb_neq in N. unfold reject_if. rewrite N. now apply SR_refl.
  - pose proof (SR_gated _ _ I I1 G B1) as S1. destruct (iib h).
    + destruct E1 as [E1 _]. unfold bind. rewrite E1. now apply W.
    + subst. unfold bind, ret. now apply W.
Qed.

Lemma solve_SR o h : kind_of o = Solve -> inv h -> tr_SR (exec o) h.
Proof.
  intros K I. destruct o; try discriminate K; cbn [HandleModel.exec]; apply SR_done.
  - now apply varied_SR.
  - now apply solution_SR.
  - apply SR_wrap. now apply solution_SR.
  - apply SR_wrap. now apply solution_SR.
  - apply SR_wrap. now apply solution_SR.
  - now apply SR_refl.
  - unfold local_query, tr_SR. pose proof (pre_SR h I) as P. unfold bind.
    destruct (solution_preprocess h) as [[] h1|? h1|]; auto. destruct P as [P _].
    unfold cfg, CHECK_INDEX_RANGE, reject_if. destruct (_ || _); [exact P|]. cbn [ret].
    unfold ret. destruct (_ || _); [exact P|].
    pose proof (getsol_SR h1 fx EInt (proj1 P)) as G. unfold tr_SR in G.
    destruct (get_solution fx EInt h1); eauto using SR_trans.
Qed.

(** xrtm_solution_2 *)
Definition setc (c : config) (h : handle) : handle := mkH c (h_alloc h) (h_mem h) (h_live h) (h_dep h).
Lemma inv_setc h c : inv h -> cfg_rel c (h_alloc h) -> inv (setc c h).
Proof. intros [[A1 A2 A3 A4 A5] I2 I3 I4 I5] R. constructor; auto. constructor; auto. Qed.

Definition off (c : config) : config := with_derivs (N.lxor (c_options c) OPT_CALC_DERIVS) 0 c.

Lemma on_cfg h : inv h -> has_opt (h_cfg h) OPT_CALC_DERIVS = true -> h_cfg h = h_alloc h.
Proof.
  intros I H. destruct (k_cfg _ (i_core _ _ I)) as [E|[H2 E]]; auto. exfalso.
  rewrite E in H. unfold has_opt, with_derivs in *. cbn in H. unfold OPT_CALC_DERIVS in *. rewrite tst_bit in *.
  rewrite N.lxor_spec, bit_testbit, H2 in H. discriminate H.
Qed.

Lemma on_off c : has_opt c OPT_CALC_DERIVS = true -> cfg_rel (off c) c.
Proof. intro H. right. auto. Qed.

Lemma with_back c : with_derivs (c_options c) (c_n_derivs c) (off c) = c.
Proof. destruct c; reflexivity. Qed.

Lemma solve2_part h fx : inv h ->
  exec (Solution2 fx) h = Undef \/ exec (Solution2 fx) h = Fail EM1 h \/
  exists h', SR h h' /\ has_opt (h_cfg h) OPT_CALC_DERIVS = true /\
    ((exec (Solution2 fx) h = Ret [] h' /\ fx_ok fx = true) \/
     (exec (Solution2 fx) h = Fail EM1 (setc (off (h_cfg h)) h') /\ inv (setc (off (h_cfg h)) h'))).
Proof.
  intro I. cbn [HandleModel.exec]. unfold done, solution_2. rewrite bind_assoc.
  rewrite (bind_eq cfg _ h (h_cfg h) h eq_refl).
  destruct (has_opt (h_cfg h) OPT_CALC_DERIVS) eqn:O1; [|right; left; reflexivity].
  destruct (has_opt (h_cfg h) OPT_REVERSE_DERIVS) eqn:O2; [|right; left; reflexivity].
  unfold reject_if. cbn [negb]. rewrite !bind_assoc. unfold bind at 1. unfold ret at 1. unfold bind at 1. unfold ret at 1.
  pose proof (on_cfg h I O1) as EC. set (h1 := setc (off (h_cfg h)) h).
  assert (RO : cfg_rel (off (h_cfg h)) (h_alloc h)) by (rewrite <- EC; now apply on_off).
  assert (I1 : inv h1) by (apply inv_setc; auto).
  unfold bind at 1. unfold set_cfg at 1. fold (off (h_cfg h)). fold (setc (off (h_cfg h)) h). fold h1.
  destruct (get_solution_part cosd h1 fx EM1 I1) as [E|(h2 & S & E)].
  - left. unfold bind. change (get_solution fx EM1 h1 = Undef) in E. unfold h1, setc, off in E. now rewrite E.
  - right. right. destruct S as (S1 & S2 & S3 & S4 & S5).
    assert (I2 : inv (setc (h_cfg h) h2)).
    { apply inv_setc; auto. rewrite S3. left. exact EC. }
    exists (setc (h_cfg h) h2). split; [|split; auto].
    + srs; auto.
      * intro B. change (iib h2 = false). unfold iib in *. rewrite S5; auto. right. discriminate.
      * intros l _ _ H. now apply S5.
    + unfold bind, set_cfg, ret. repeat match goal with |- context [get_solution fx EM1 ?k] => progress change k with h1 end. rewrite !E. destruct (fx_ok fx).
      * left. split; auto. rewrite S2. unfold h1. cbn [setc h_cfg].
        rewrite with_back. reflexivity.
      * right. change (setc (off (h_cfg h)) (setc (h_cfg h) h2)) with (setc (off (h_cfg h)) h2).
        replace (setc (off (h_cfg h)) h2) with h2; auto. destruct h2. unfold setc. cbn in *. now subst.
Qed.
End Hist.
