(** The properties of the handle over whole histories. *)
From Coq Require Import ZArith NArith List Bool Lia SpecFloat.
From Verif Require Import Base OptionsModel OptionsSpec OptionsProofs Dbl HandleModel HandleTable HandleWp
  HandleSetters HandleInv HandleSteps HandleGetters HandleSpec HandleFrame HandleGate HandleSolve HandleHist HandleCalls
  HandleHistory HandleGetSet HandleRange.
Import ListNotations.
Open Scope Z_scope.

(* ------------------------------------------------------------------------- *)
(** * Dependency bits only rise in setters                                    *)

Definition risen (h h' : handle) : Prop :=
  forall x b, (b < 32)%N -> N.testbit (h_dep h x) b = true -> N.testbit (h_dep h' x) b = true.
Definition raises {A} (m : M A) : Prop :=
  forall h, match m h with Ret _ h' | Fail _ h' => risen h h' | Undef => True end.

Lemma risen_refl h : risen h h. Proof. intros x b _ H. exact H. Qed.
Lemma raises_same {A} (m : M A) : (forall h, match m h with Ret _ h' | Fail _ h' => h_dep h' = h_dep h | _ => True end) -> raises m.
Proof. intros H h. specialize (H h). destruct (m h); auto; intros x b _; now rewrite H. Qed.
Lemma raises_bind {A B} (m : M A) (k : A -> M B) : raises m -> (forall a, raises (k a)) -> raises (bind m k).
Proof.
  intros H1 H2 h. unfold bind. specialize (H1 h). destruct (m h) as [a h'|e h'|]; auto.
  specialize (H2 a h'). destruct (k a h'); auto; intros x b L T; apply H2; auto.
Qed.
Lemma raises_ret {A} (a : A) : raises (ret a). Proof. now apply raises_same. Qed.
Lemma raises_fail {A} e : raises (@fail A e). Proof. now apply raises_same. Qed.
Lemma raises_undef {A} : raises (@undef A). Proof. now apply raises_same. Qed.
Lemma raises_cfg : raises cfg. Proof. now apply raises_same. Qed.
Lemma raises_rd l : raises (rd l).
Proof. apply raises_same. intro h. unfold rd. destruct acc; auto. destruct (h_mem h l); auto. Qed.
Lemma raises_rdZ l : raises (rdZ l).
Proof. unfold rdZ. apply raises_bind; [apply raises_rd|]. intros []; [apply raises_ret|apply raises_undef]. Qed.
Lemma raises_rdD l : raises (rdD l).
Proof. unfold rdD. apply raises_bind; [apply raises_rd|]. intros []; [apply raises_undef|apply raises_ret]. Qed.
Lemma raises_wr l v : raises (wr l v).
Proof. apply raises_same. intro h. unfold wr. destruct acc; auto. Qed.
Lemma raises_ua {A} (x : list A) i : raises (ua x i).
Proof. unfold ua. destruct (i <? 0); [apply raises_undef|]. destruct nth_error; [apply raises_ret|apply raises_undef]. Qed.
Lemma raises_when b m : raises m -> raises (when b m).
Proof. unfold when. destruct b; auto using raises_ret. Qed.
Lemma raises_reject b e : raises (reject_if b e).
Proof. unfold reject_if. destruct b; [apply raises_fail|apply raises_ret]. Qed.
Lemma raises_for {A} (l : list A) body : (forall i, raises (body i)) -> raises (for_ l body).
Proof.
  intro H. induction l as [|i l IH]; cbn [for_]; [apply raises_ret|].
  apply raises_bind; auto.
Qed.
Lemma raises_wrap {A} (m : M A) : raises m -> raises (wrap m).
Proof. intros H h. unfold wrap. specialize (H h). destruct (m h); auto. Qed.
Lemma raises_if {A} (b : bool) (m1 m2 : M A) : raises m1 -> raises m2 -> raises (if b then m1 else m2).
Proof. destruct b; auto. Qed.
Lemma raises_deps m a b : raises (set_deps m a b).
Proof.
  intros h x k _ H. cbn. destruct dep_hit; auto. rewrite N.lor_spec, H. reflexivity.
Qed.
Lemma mask_bits k : (k < 32)%N -> N.testbit DEP_MASK k = true.
Proof.
  intro H. change DEP_MASK with (N.ones 32). now apply N.ones_spec_low.
Qed.
Lemma raises_idep a b : raises (init_deps DEP_MASK a b).
Proof. intros h x k L H. cbn -[DEP_MASK]. destruct dep_hit; auto. now apply mask_bits. Qed.

Ltac rps := repeat first
  [ apply raises_bind; [|intro] | apply raises_ret | apply raises_fail | apply raises_undef | apply raises_cfg
  | apply raises_rd | apply raises_rdZ | apply raises_rdD | apply raises_wr | apply raises_ua
  | apply raises_when | apply raises_reject | apply raises_wrap | apply raises_deps | apply raises_idep
  | apply raises_for; intro
  | match goal with
    | |- raises (if ?b then _ else _) => apply raises_if
    | |- raises (match ?x with _ => _ end) => destruct x
    end ].

Lemma raises_adjust l : forall n, raises (adjust_loop l n).
Proof.
  induction l as [|i l IH]; intro n; cbn [adjust_loop].
  - apply raises_ret.
  - repeat (apply raises_bind; [rps|intro]). cbv zeta. apply raises_if.
    + apply raises_bind; [apply raises_wr|]. intros _. apply raises_if; [apply raises_fail|apply IH].
    + apply raises_if; [apply raises_fail|apply IH].
Qed.

Lemma dirty_bits h : dirty h = true <-> N.testbit (h_dep h DUtaus) 9 = true \/ N.testbit (h_dep h DUtaus) 28 = true.
Proof.
  unfold dirty, DEP_UTAUS, DEP_LTAU. rewrite tst_lor, !tst_bit, orb_true_iff. tauto.
Qed.

Section Proofs.
Variables cosd acosd : dbl -> dbl.
Notation inv := (inv cosd).
Notation exec := (exec cosd acosd).
Notation steps := (steps cosd acosd).
Notation hist := (hist cosd acosd).

Lemma raises_setter s : kind_of s = Setter \/ kind_of s = Clear -> raises (exec s).
Proof.
  destruct s; intros [K|K]; try discriminate K; cbn [HandleModel.exec];
   unfold set_doub_d_tau, set_pade_params, set_sos_params, set_fourier_tol, set_lambda, set_planet_r, set_levels_z,
      set_out_levels, set_out_taus, set_out_thetas, set_theta_0, set_F_iso_top, set_F_iso_top_l_1, set_F_iso_top_l_n, set_F_iso_bot, set_F_iso_bot_l_1,
      set_F_iso_bot_l_n, set_F_0, set_phi_0, set_levels_b, set_levels_b_l_1, set_levels_b_l_n, set_surface_b, set_surface_b_l_1,
      set_surface_b_l_n, set_g_x, set_g_x_l, set_coef_1, set_coef_n, set_coef_x, set_coef_l_11, set_coef_l_n1, set_coef_l_1n,
      set_coef_l_nn, set_coef_x_l, set_omega_1, set_omega_n, set_omega_x, set_x_l_11, set_x_l_n1, set_x_l_1n, set_x_l_nn, set_x_l,
      set_ltau_1, set_ltau_n, set_ltau_x, set_kernel_ampfac, set_kernel_params_1, set_kernel_params_n, set_kernel_ampfac_l_1,
      set_kernel_ampfac_l_n, set_kernel_params_l_11, set_kernel_params_l_1n, set_kernel_params_l_n1, set_kernel_params_l_nn,
      set_kernel_func, clear_saved, mu_0_singularity_adjust, update_n_four2_m,
      set_layer_x, set_layer_x_l, set_elem_flag, wrZ, wrD, set_deps_all, done, need_opt, need_slv, CHECK_INIT_FOR_DERIVS,
      CHECK_INDEX_RANGE, CHECK_N_KERNELS_NOT_ZERO, kernel_at; rps; apply raises_adjust.
Qed.

Lemma dirty_risen h h' : risen h h' -> dirty h = true -> dirty h' = true.
Proof. intros R. rewrite !dirty_bits. intros [H|H]; [left|right]; apply R; auto; reflexivity. Qed.

Lemma varied_dep h ok h' : inv h -> steps h UpdateVaried ok h' -> h_dep h' = h_dep h.
Proof.
  intros I ST. unfold HandleHist.steps in ST. cbn [HandleModel.exec] in ST.
  assert (W : match update_varied_layers h with Ret _ h1 | Fail _ h1 => h_dep h1 = h_dep h | Undef => True end).
  { unfold update_varied_layers, need_opt. rewrite bind_assoc.
    rewrite (bind_eq cfg _ h (h_cfg h) h eq_refl). unfold reject_if at 1.
    destruct (negb _); [reflexivity|]. erewrite bind_eq by reflexivity.
    destruct (iib_rd cosd h I) as (z & E & Bz). rewrite (bind_eq _ _ _ _ _ E), Bz.
    destruct (gate_ok cosd h I) as [[B N]|(h1 & G & I1 & B1 & E1)].
    - rewrite B. destruct (check_ok cosd h I B) as [[_ E1]|(Z0 & _)]; [|congruence].
      unfold bind. rewrite E1. apply Z.eqb_neq in N. unfold reject_if. rewrite N. reflexivity.
    - unfold gated in G. destruct (iib h).
      + destruct E1 as [E1 _]. unfold bind. rewrite E1. destruct G as (_ & _ & G & _). exact G.
      + subst. reflexivity. }
  unfold done, bind in ST. destruct ok, ST as (v & E); destruct (update_varied_layers h) as [[] h1|e1 h1|]; try discriminate E;
    injection E as <- <-; exact W.
Qed.

Lemma step_risen h o ok h' : inv h -> steps h o ok h' -> runs o = false -> risen h h'.
Proof.
  intros I ST R. pose proof ST as ST0. unfold HandleHist.steps in ST. destruct (kind_of o) eqn:K.
  - pose proof (raises_setter o (or_introl K) h) as W. destruct ok, ST as (v & E); now rewrite E in W.
  - pose proof (getter_pure cosd acosd o h K) as P. destruct ok, ST as (v & E); rewrite E in P; subst; apply risen_refl.
  - destruct o; try discriminate K; try discriminate R.
    + intros x b _. now rewrite (varied_dep h ok h' I ST0).
    + destruct ok, ST as (v & E); cbn in E; [discriminate|]. injection E as _ <-. apply risen_refl.
  - destruct o; discriminate.
  - pose proof (raises_setter o (or_intror K) h) as W. destruct ok, ST as (v & E); now rewrite E in W.
Qed.

(** Accepted setters of optical depths mark them as to be checked. *)
Definition depth_setter (o : op) : bool :=
  match o with SetOutTaus _ | SetLtau1 _ _ | SetLtaun _ => true | _ => false end.

Lemma step_dirty h o h' : inv h -> sized h o -> steps h o true h' -> depth_setter o = true -> dirty h' = true.
Proof.
  intros I SZ ST D. destruct (simple o) eqn:S.
  - pose proof (simple_R cosd acosd h o (i_core _ _ I) SZ S) as R. unfold HandleTable.R in R.
    destruct ST as (v & E). destruct (accept (h_cfg h) o) eqn:A.
    + rewrite E in R. injection R as _ ->. apply dirty_bits.
      unfold effect, post. destruct o; try discriminate S; try discriminate D; cbn [dbits dep_or h_dep dep_hit];
        right; now rewrite N.lor_spec, orb_true_r.
    + destruct R as (e & R). rewrite E in R. discriminate.
  - destruct o; try discriminate S; try discriminate D. destruct ST as (v & E). cbn [HandleModel.exec] in E.
    unfold done, set_out_taus in E. apply bind_inv in E as ([] & h1 & E & E2). injection E2 as _ <-.
    do 4 (apply bind_inv in E as (? & ? & _ & E)). injection E as <-.
    apply dirty_bits. cbn [dep_or h_dep dep_hit]. left. now rewrite N.lor_spec, orb_true_r.
Qed.

(* ------------------------------------------------------------------------- *)
(** * C08                                                                     *)

Lemma rejected_same h o e h' : inv h -> sized h o -> kind_of o = Setter -> atomic o = true ->
  exec o h = Fail e h' -> h' = h.
Proof.
  intros I SZ K A E. assert (S : simple o = true) by (destruct o; try discriminate K; try discriminate A; reflexivity).
  pose proof (simple_R cosd acosd h o (i_core _ _ I) SZ S) as R. unfold HandleTable.R in R.
  destruct (accept (h_cfg h) o); [congruence|]. destruct R as (e' & R). congruence.
Qed.

Lemma for_fails {A} (l : list A) (body : A -> M unit) h :
  (forall i, In i l -> body i h = Ret tt h \/ exists e, body i h = Fail e h) ->
  (exists i e, In i l /\ body i h = Fail e h) -> exists e, for_ l body h = Fail e h.
Proof.
  induction l as [|i l IH]; intros H (j & e & Hj & E); [destruct Hj|]. cbn [for_]. unfold bind.
  destruct (H i (or_introl eq_refl)) as [Ei|(e' & Ei)]; rewrite Ei; [|eauto].
  destruct Hj as [->|Hj]; [congruence|]. apply IH; eauto. intros; apply H; now right.
Qed.

Lemma fail_done m h : (exists e, m h = Fail e h) -> exists e, done m h = Fail e h.
Proof. intros (e & E). unfold done, bind. rewrite E. eauto. Qed.

Lemma ua_at1 x i h : 0 <= i < len x -> ua x i h = Ret (at1 x i) h.
Proof. intro H. rewrite (ua_ok d_zero) by auto. reflexivity. Qed.
Lemma ua_nth (x : list Z) i h : 0 <= i < len x -> ua x i h = Ret (nth (Z.to_nat i) x 0) h.
Proof. intro H. rewrite (ua_ok 0) by auto. reflexivity. Qed.

Lemma refused_same h o : inv h -> sized h o -> refused_at_once (h_cfg h) o -> exists e, exec o h = Fail e h.
Proof.
  intros I SZ R. destruct o; try (now elim R); cbn [refused_at_once sized] in *; cbn [HandleModel.exec].
  - (* out_taus *) apply fail_done. unfold set_out_taus, need_opt. rewrite bind_assoc. rewrite (bind_eq cfg _ h (h_cfg h) h eq_refl).
    unfold reject_if at 1. destruct R as [R|[N R]].
    + rewrite R. cbn. unfold bind, fail. eauto.
    + destruct (has_opt _ _); cbn [negb]; [|unfold bind, fail; eauto].
      rewrite (bind_eq _ _ h tt h eq_refl). rewrite (bind_eq cfg _ h (h_cfg h) h eq_refl).
      rewrite zseq_cons by lia. cbn [for_]. rewrite bind_assoc. rewrite bind_assoc.
      rewrite (bind_eq _ _ _ _ _ (ua_at1 x 0 h ltac:(lia))). rewrite R. unfold reject_if, bind, fail. eauto.
  - (* out_thetas *) apply fail_done. unfold set_out_thetas. rewrite (bind_eq cfg _ h (h_cfg h) h eq_refl).
    unfold reject_if at 1. destruct (Z.eqb_spec (c_n_umus (h_cfg h)) 0) as [Z0|Z0]; [unfold bind, fail; eauto|].
    destruct R as [R|(i & W & R)]; [congruence|]. rewrite (bind_eq _ _ h tt h eq_refl).
    edestruct (for_fails (zseq 0 (c_n_umus (h_cfg h)))
       (fun i => a <- ua x i;; reject_if (dlt a d_zero || dge a d_90) EInt) h) as (e & E).
    + intros j Hj. apply in_zseq in Hj. rewrite (bind_eq _ _ _ _ _ (ua_at1 x j h ltac:(lia))).
      unfold reject_if. destruct (_ || _); [right; eexists; reflexivity|now left].
    + unfold within in W. exists i, EInt. split; [apply in_zseq; lia|].
      rewrite (bind_eq _ _ _ _ _ (ua_at1 x i h ltac:(lia))). unfold bad_angle in R. now rewrite R.
    + exists e. unfold bind at 1. now rewrite E.
  - (* theta_0 *) apply fail_done. unfold set_theta_0, need_opt. rewrite bind_assoc. rewrite (bind_eq cfg _ h (h_cfg h) h eq_refl).
    unfold reject_if at 1. destruct (has_opt _ _) eqn:O; cbn [negb]; [|unfold bind, fail; eauto].
    destruct R as [R|R]; [congruence|]. rewrite (bind_eq _ _ h tt h eq_refl). unfold bad_angle in R. rewrite R.
    unfold reject_if, bind, fail. eauto.
  - (* coef_1 *) apply fail_done. unfold set_coef_1, wrap. assert (X : exists e, set_coef_x [x] i (i + 1) (if n <? 0 then None else Some [n]) h = Fail e h).
    { unfold set_coef_x, need_slv. rewrite bind_assoc. rewrite (bind_eq cfg _ h (h_cfg h) h eq_refl).
      unfold reject_if at 1. change SOLVERS_USE_COEF with SOLVERS_ALL.
      destruct (has_slv _ _) eqn:O; cbn [negb]; [|unfold bind, fail; eauto].
      destruct R as [R|R]; [congruence|]. rewrite (bind_eq _ _ h tt h eq_refl).
      rewrite (bind_eq cfg _ h (h_cfg h) h eq_refl). unfold CHECK_INDEX_RANGE, reject_if at 1.
      destruct ((i <? 0) || _) eqn:B; [unfold bind, fail; eauto|]. rewrite (bind_eq _ _ h tt h eq_refl).
      apply orb_false_iff in B as [B1 B2]. destruct R as [R|R]; [unfold within in R; lia|].
      pose proof (g_nc _ (k_good _ (i_core _ _ I))). pose proof (cfg_dims _ _ (k_cfg _ (i_core _ _ I))) as KC.
      rewrite <- (de_nc _ _ KC) in *.
      destruct (Z.ltb_spec n 0); [lia|]. rewrite zseq_one. cbn [for_]. rewrite Z.sub_diag. 
      unfold ua, bind, ret, reject_if. cbn. destruct (Z.ltb_spec n 0); [lia|]. destruct (Z.gtb_spec n (c_n_coef (h_cfg h))); [|lia].
      unfold fail. eexists. reflexivity. }
    destruct X as (e & ->). eauto.
  - (* coef_n *) apply fail_done. unfold set_coef_n. rewrite (bind_eq cfg _ h (h_cfg h) h eq_refl). unfold wrap.
    assert (X : exists e, set_coef_x x 0 (c_n_layers (h_cfg h)) n h = Fail e h).
    { unfold set_coef_x, need_slv. rewrite bind_assoc. rewrite (bind_eq cfg _ h (h_cfg h) h eq_refl).
      unfold reject_if at 1. change SOLVERS_USE_COEF with SOLVERS_ALL.
      destruct (has_slv _ _) eqn:O; cbn [negb]; [|unfold bind, fail; eauto].
      destruct n as [ns|]; [|congruence]. destruct SZ as [_ [SZ _]].
      destruct R as [R|(i & W & R)]; [congruence|]. rewrite (bind_eq _ _ h tt h eq_refl).
      rewrite (bind_eq cfg _ h (h_cfg h) h eq_refl). unfold CHECK_INDEX_RANGE, reject_if at 1.
      unfold within in W. destruct ((0 <? 0) || (0 >=? _)) eqn:B; [unfold bind, fail; eauto|]. rewrite (bind_eq _ _ h tt h eq_refl).
      edestruct (for_fails (zseq 0 (c_n_layers (h_cfg h)))
       (fun i => n <- ua ns (i - 0);; reject_if (n <? 0) EM1;; reject_if (n >? c_n_coef (h_cfg h)) EM1) h) as (e & E).
      + intros j Hj. apply in_zseq in Hj. rewrite Z.sub_0_r. rewrite (bind_eq _ _ _ _ _ (ua_nth ns j h ltac:(lia))).
        unfold reject_if. destruct (nth _ ns 0 <? 0); [right; eexists; reflexivity|].
        rewrite (bind_eq _ _ h tt h eq_refl). destruct (_ >? _); [right; eexists; reflexivity|now left].
      + exists i, EM1. split; [apply in_zseq; lia|]. rewrite Z.sub_0_r.
        rewrite (bind_eq _ _ _ _ _ (ua_nth ns i h ltac:(lia))). unfold bad_count in R. unfold reject_if.
        destruct (nth _ ns 0 <? 0); [reflexivity|]. cbn [orb] in R. rewrite (bind_eq _ _ h tt h eq_refl). now rewrite R.
      + exists e. unfold bind at 1. now rewrite E. }
    destruct X as (e & ->). eauto.
Qed.

(* ------------------------------------------------------------------------- *)
(** * C09                                                                     *)

Lemma fl_input x : input x = true -> isflag (fl x) = true.
Proof. destruct x; try discriminate; reflexivity. Qed.

Lemma gaccept_flag h g x : about g = Some x -> input x = true -> g <> GetQx -> gaccept h g = true -> flagged h (fl x) = true.
Proof.
  intros A IN NQ G. destruct g; try discriminate A; injection A as <-; try discriminate IN; try congruence;
    cbn [gaccept andl fold_right fl] in G |- *;
    repeat match goal with H : _ && _ = true |- _ => apply andb_true_iff in H as [? ?] end; assumption.
Qed.

Lemma unset_refused h0 t h g x nco : inv h0 -> iib h0 = true -> (forall f, isflag f = true -> h_mem h0 f = Some (VZ 0)) ->
  hist h0 t h -> no_solve t -> about g = Some x -> input x = true -> ~ maybe t x ->
  g <> GetQx -> index_ok (h_cfg h) nco g -> exists e, exec g h = Fail e h.
Proof.
  intros I B0 Z0 H NS A IN NM NQ IX. pose proof (hist_inv cosd acosd _ _ _ I H) as I1.
  assert (B : iib h = true) by (rewrite (hist_unready cosd acosd _ _ _ H NS); exact B0).
  assert (G : is_getter g = true) by (destruct g; try discriminate A; reflexivity).
  assert (GA : gaccept h g = false).
  { destruct (gaccept h g) eqn:GA; auto. exfalso. apply NM.
    pose proof (gaccept_flag h g x A IN NQ GA) as F. 
    apply (hist_maybe cosd acosd h0 t h x I Z0 H (fl_input x IN)).
    apply (flagged_set cosd h (fl x) I1 (fl_input x IN) F). congruence. }
  assert (GS : gsafe h g) by (eapply index_safe; eauto).
  pose proof (getter_R cosd acosd h g I1 G GS) as R. rewrite GA in R. apply R. discriminate.
Qed.

(* ------------------------------------------------------------------------- *)
(** * C10                                                                     *)

Lemma setter_defined h o : kind_of o = Setter -> inv h -> sized h o -> exec o h <> Undef.
Proof. intros K I SZ E. pose proof (setter_wp cosd acosd o h K I SZ) as W. unfold wp in W. now rewrite E in W. Qed.

Lemma kernel_arity_eq h i : inv h -> 0 <= i < c_n_kernels (h_cfg h) ->
  kernel_arity (kernel_type (h_cfg h) i) = kernel_n_params (xz (c_kernels (h_cfg h)) i).
Proof. intros I Hi. symmetry. apply arity_ok. eapply good_cfg; eauto. Qed.

Lemma setter_in_range h o v h' : inv h -> sized h o -> exec o h = Ret v h' -> setter_index_ok (h_cfg h) o.
Proof.
  intros I SZ E. destruct (simple o) eqn:S.
  - pose proof (simple_R cosd acosd h o (i_core _ _ I) SZ S) as R. unfold HandleTable.R in R.
    destruct (accept (h_cfg h) o) eqn:A; [|destruct R as (e & R); rewrite E in R; discriminate].
    destruct o; try exact Logic.I; try discriminate S; cbn [setter_index_ok accept andl fold_right] in *; unfold within;
      repeat match goal with H : _ && _ = true |- _ => apply andb_true_iff in H as [? ?] end;
      repeat match goal with H : in_range _ _ = true |- _ => rewrite in_range_iff in H end;
      repeat match goal with |- _ /\ _ => split end; try lia; rewrite kernel_arity_eq by (auto; lia); try lia.
  - destruct o; try exact Logic.I; try discriminate S.
    pose proof (coef_wp cosd acosd (SetCoef1 i n x) h eq_refl I SZ) as W. unfold wp in W. rewrite E in W.
    destruct W as (_ & _ & _ & W & _). apply (W i). cbn. apply Z.eqb_refl.
Qed.

Lemma flag_acc h f e v h' : inv h -> GET_INPUTS_CHECK_SET_FLAGS f e h = Ret v h' -> iib h = true -> acch h f.
Proof.
  intros I E B. unfold GET_INPUTS_CHECK_SET_FLAGS in E. destruct (iib_rd cosd h I) as (z & Ez & Bz).
  rewrite (bind_eq _ _ _ _ _ Ez) in E. unfold acch. rewrite B in Bz. apply negb_true_iff in Bz. rewrite Bz in E.
  apply bind_inv in E as (? & ? & E & _). unfold rdZ, rd, bind in E. destruct (acc _ _ _); [reflexivity|discriminate].
Qed.

Ltac stepi E := apply bind_inv in E as (? & ? & ?E1 & E).

Lemma acch_block h f n : inv h -> acch h f ->
  (match f with FlCoef i | FlOmega i | FlLtau i => n = c_n_layers (h_cfg h) /\ True | _ => False end) ->
  match f with FlCoef i | FlOmega i | FlLtau i => 0 <= i < n | _ => True end.
Proof.
  intros I A. pose proof (cfg_dims _ _ (k_cfg _ (i_core _ _ I))) as KC. destruct f; try easy; intros [-> _];
    unfold acch in A; cbn [acc] in A; repeat (apply andb_true_iff in A as [A ?]);
    repeat match goal with H : in_range _ _ = true |- _ => rewrite in_range_iff in H end; rewrite (de_nl _ _ KC); lia.
Qed.

Lemma ret_safe h g r h' : inv h -> g <> GetQx -> exec g h = Ret r h' -> gsafe h g.
Proof.
  intros I NQ E. pose proof (cfg_dims _ _ (k_cfg _ (i_core _ _ I))) as KC.
  assert (PC : forall S e v h1, need_slv S e h = Ret v h1 -> h1 = h).
  { intros S e v h1 Q. unfold need_slv, bind, cfg, reject_if in Q. destruct (negb _); [discriminate|now injection Q]. }
  assert (PK : forall e v h1, CHECK_N_KERNELS_NOT_ZERO e h = Ret v h1 -> h1 = h).
  { intros e v h1 Q. unfold CHECK_N_KERNELS_NOT_ZERO, bind, cfg, reject_if in Q. destruct (_ =? _); [discriminate|now injection Q]. }
  destruct g; try exact Logic.I; cbn [gsafe HandleModel.exec] in *; try match goal with |- _ -> _ /\ _ => intro B end.
  - unfold get_n_coef in E. stepi E. apply PC in E1 as ->. stepi E. pose proof (flag_acc _ _ _ _ _ I E1 B) as A.
    exact (acch_block h (FlCoef i) _ I A (conj eq_refl Logic.I)).
  - unfold get_coef in E. stepi E. apply PC in E1 as ->. stepi E. pose proof (flag_acc _ _ _ _ _ I E1 B) as A.
    exact (acch_block h (FlCoef i) _ I A (conj eq_refl Logic.I)).
  - unfold get_omega in E. stepi E. pose proof (flag_acc _ _ _ _ _ I E1 B) as A.
    exact (acch_block h (FlOmega i) _ I A (conj eq_refl Logic.I)).
  - unfold get_ltau in E. stepi E. pose proof (flag_acc _ _ _ _ _ I E1 B) as A.
    exact (acch_block h (FlLtau i) _ I A (conj eq_refl Logic.I)).
  - unfold get_kernel_ampfac in E. stepi E. apply PK in E1 as ->. stepi E. pose proof (flag_acc _ _ _ _ _ I E1 B) as A.
    unfold acch in A; cbn [acc] in A; repeat (apply andb_true_iff in A as [A ?]);
    repeat match goal with H : in_range _ _ = true |- _ => rewrite in_range_iff in H end; rewrite (de_nk _ _ KC); lia.
  - unfold get_kernel_params in E. stepi E. apply PK in E1 as ->. stepi E. pose proof (flag_acc _ _ _ _ _ I E1 B) as A.
    unfold acch in A; cbn [acc] in A; repeat (apply andb_true_iff in A as [A ?]);
    repeat match goal with H : in_range _ _ = true |- _ => rewrite in_range_iff in H end; rewrite (de_nk _ _ KC); lia.
  - unfold get_kernel in E. apply bind_inv in E as (? & ? & _ & E). apply bind_inv in E as (? & ? & _ & E).
    apply bind_inv in E as (? & ? & E & _). unfold kernel_at in E.
    apply bind_inv in E as (? & ? & _ & E). unfold ua in E. destruct (Z.ltb_spec i 0); [discriminate|assumption].
  - congruence.
Qed.

(** The number of coefficients of a layer, as reported. *)
Definition reported (h : handle) (i : Z) : Z :=
  match exec (GetNCoef i) h with Ret [VZ n] _ => n | _ => 0 end.

Lemma reported_ncl h i : inv h -> 0 <= i < c_n_layers (h_cfg h) -> 
  (gaccept h (GetNCoef i) = true -> reported h i = ncl h i) /\ reported h i <= ncl h i.
Proof.
  intros I Hi. pose proof (cfg_dims _ _ (k_cfg _ (i_core _ _ I))) as KC.
  destruct (k_ncl _ (i_core _ _ I) i) as (n & En & Hn); [now rewrite <- (de_nl _ _ KC)|].
  pose proof (getter_R cosd acosd h (GetNCoef i) I eq_refl (fun _ => Hi) (fun _ => Logic.I)) as R. unfold HandleTable.R in R.
  assert (V : ncl h i = n) by (unfold ncl; now rewrite En). unfold reported.
  destruct (gaccept h (GetNCoef i)).
  - rewrite R. unfold gres. cbn [gcfg gcells gpost app map]. unfold cellv. rewrite En, V. split; [auto|lia].
  - destruct R as (e & ->). split; [discriminate|lia].
Qed.

Lemma reported_index h g : inv h -> index_ok (h_cfg h) (reported h) g -> index_ok (h_cfg h) (ncl h) g.
Proof.
  intros I IX. destruct g; auto; cbn [index_ok] in *; unfold within in *.
  - destruct IX as (A & B & C). destruct (reported_ncl h i I A). repeat split; lia.
  - destruct IX as (A & A2 & B & C). destruct (reported_ncl h i I A). repeat split; lia.
Qed.

Lemma ncl_index c n n' g : (forall i d j k, g <> GetCoefL i d j k) -> (forall i j k, g <> GetCoef i j k) ->
  index_ok c n g -> index_ok c n' g.
Proof. intros A B IX. destruct g; auto; [now elim (B i j k)|now elim (A i d j k)]. Qed.

Lemma answered_in_range h g r h' : inv h -> kind_of g = Getter -> exec g h = Ret r h' -> 
  index_ok (h_cfg h) (ncl h) g /\ (forall i j k, g = GetCoef i j k -> 0 <= k < reported h i).
Proof.
  intros I K E. pose proof (getter_pure cosd acosd g h K) as P. rewrite E in P. subst h'.
  assert (G : is_getter g = true) by (destruct g; try discriminate K; reflexivity).
  destruct g; try (split; [exact Logic.I|discriminate]); try discriminate K;
  (edestruct (answer_accepts cosd acosd h _ r I G) as [GA _];
    [discriminate|eapply ret_safe; [exact I|discriminate|exact E]|exact E|]; cbn [index_ok]; unfold within;
    assert (GS : gsafe h _) by (eapply ret_safe; [exact I| |exact E]; discriminate); cbn [gsafe] in GS;
    cbn [gaccept andl fold_right] in GA;
    repeat match goal with H : _ && _ = true |- _ => apply andb_true_iff in H as [? ?] end;
    repeat match goal with H : in_range _ _ = true |- _ => rewrite in_range_iff in H end;
    split; [|try discriminate; intros ? ? ? Q; injection Q as <- <- <-];
    [repeat match goal with |- _ /\ _ => split end; try lia; rewrite kernel_arity_eq by (auto; lia); lia|..]).
  destruct (reported_ncl h i I) as [Q _]; [lia|]. rewrite Q; [lia|].
  cbn [gaccept andl fold_right]. rewrite !andb_true_iff, in_range_iff. auto.
Qed.
End Proofs.
