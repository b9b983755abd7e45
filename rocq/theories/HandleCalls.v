(** One API call of any kind: never undefined when used within its documented sizes, and what
    it preserves. *)
From Coq Require Import ZArith NArith List Bool Lia SpecFloat.
From Verif Require Import Base OptionsModel OptionsSpec OptionsProofs Dbl HandleModel HandleTable HandleWp
  HandleSetters HandleInv HandleSteps HandleGetters HandleSpec HandleFrame HandleGate HandleSolve HandleHist.
Import ListNotations.
Open Scope Z_scope.

Section Calls.
Variables cosd acosd : dbl -> dbl.
Notation inv := (inv cosd).
Notation exec := (exec cosd acosd).
Notation steps := (steps cosd acosd).
Notation SR := (SR cosd).

(** ** Setting coefficients *)
Definition ncof (c : config) (o : op) (i : Z) : Z :=
  match o with
  | SetCoef1 _ n _ => if n <? 0 then c_n_coef c else n
  | SetCoefn None _ => c_n_coef c
  | SetCoefn (Some ns) _ => xz ns i
  | _ => 0
  end.
Definition cmat (o : op) (i : Z) : list (list dbl) :=
  match o with SetCoef1 _ _ x => x | SetCoefn _ x => xl x i | _ => [] end.
Definition coefs_set (h : handle) (o : op) (h' : handle) : Prop :=
  has_slv (h_cfg h) SOLVERS_USE_COEF = true /\
  (forall i, changes o (ICoef i) = true -> match o with SetCoef1 _ _ _ => 0 <= i < c_n_layers (h_cfg h) | _ => True end) /\
  forall i, 0 <= i < c_n_layers (h_cfg h) -> changes o (ICoef i) = true ->
    coef_layer_ok h' (ncof (h_cfg h) o i) i (cmat o i) /\ 0 <= ncof (h_cfg h) o i <= c_n_coef (h_cfg h).

Lemma wp_wrap_ {A} (m : M A) Q (F : errc -> handle -> Prop) h : wp m Q (fun _ => F EInt) h -> wp (wrap m) Q F h.
Proof. unfold wp, wrap. destruct (m h); auto. Qed.

Lemma coef_wp o h : is_set_coef o = true -> inv h -> sized h o ->
  wp (exec o) (fun r h' => r = [] /\ inv h' /\ coefs_set h o h') (fun _ => inv) h.
Proof.
  intros K I SZ.
  assert (GL : 0 <= c_n_layers (h_cfg h)).
  { pose proof (i_core _ _ I) as C. pose proof (cfg_dims _ _ (k_cfg _ C)) as KC. pose proof (g_nl _ (k_good _ C)).
    rewrite (de_nl _ _ KC). lia. }
  destruct o; try discriminate K; cbn [sized HandleModel.exec] in *; unfold done.
  - apply wp_bind. unfold set_coef_1. apply wp_wrap_.
    eapply wp_conseq; [apply (set_coef_wp cosd); [exact I| | |]| |auto].
    + intro R. rewrite in_range_iff in R. lia.
    + intros l E. destruct (n <? 0); [discriminate|]. injection E as <-. change (len [n]) with 1. lia.
    + intros k Hk. change (len [x]) with 1. split; [lia|]. assert (k = i) by lia. subst k. rewrite Z.sub_diag.
      change (xl [x] 0) with x. unfold nco. destruct (n <? 0); exact SZ.
    + cbv beta. intros [] h' (I' & R & O & V). apply wp_ret. split; auto. split; auto. rewrite in_range_iff in R.
      split; auto. split; [cbn [changes]; intros; lia|]. intros k Hk Ck. cbn [changes] in Ck. assert (k = i) by lia. subst k.
      destruct (V i ltac:(lia)) as [V1 V2]. rewrite Z.sub_diag in *. change (xl [x] 0) with x in V1.
      unfold ncof, cmat. unfold nco in *. destruct (n <? 0); auto.
  - apply wp_bind. unfold set_coef_n. apply wp_bind, wp_cfg. apply wp_wrap_. destruct SZ as [S1 S2].
    eapply wp_conseq; [apply (set_coef_wp cosd); [exact I| | |]| |auto].
    + intro R. lia.
    + intros l ->. lia.
    + intros k Hk. split; [lia|]. rewrite Z.sub_0_r. destruct n as [nn|]; cbn [nco]; [apply S2|apply S2]; lia.
    + cbv beta. intros [] h' (I' & R & O & V). apply wp_ret. split; auto. split; auto.
      split; auto. split; [auto|]. intros k Hk _. destruct (V k ltac:(lia)) as [V1 V2]. rewrite Z.sub_0_r in *.
      unfold ncof, cmat. unfold nco in *. destruct n; auto.
Qed.

(** ** Every setter *)
Lemma inv_effect h o : inv h -> simple o = true -> accept (h_cfg h) o = true -> inv (effect h o).
Proof.
  intros I S A. unfold effect, post. pose proof (inv_apw _ _ _ I (wok_simple cosd h o (i_core _ _ I) S A)) as H.
  destruct (dbits (h_cfg h) o) as [[[m a] b]|]; auto. now apply inv_dep_or.
Qed.

Lemma setter_wp o h : kind_of o = Setter -> inv h -> sized h o ->
  wp (exec o) (fun _ => inv) (fun _ => inv) h.
Proof.
  intros K I SZ. destruct (simple o) eqn:S.
  - pose proof (simple_R cosd acosd h o (i_core _ _ I) SZ S) as R. unfold HandleTable.R in R. unfold wp.
    destruct (accept (h_cfg h) o) eqn:A.
    + rewrite R. now apply inv_effect.
    + destruct R as (e & R). now rewrite R.
  - destruct o; try discriminate K; try discriminate S.
    + eapply wp_conseq; [apply out_taus_wp; auto|cbv beta; intuition|auto].
    + eapply wp_conseq; [apply out_thetas_wp; auto|cbv beta; intuition|auto].
    + eapply wp_conseq; [apply theta_0_wp; auto|cbv beta; intuition|auto].
    + eapply wp_conseq; [apply coef_wp; auto|cbv beta; intuition|auto].
    + eapply wp_conseq; [apply coef_wp; auto|cbv beta; intuition|auto].
Qed.

Lemma clear_ok h : exec ClearSaved h = Ret [] (setd (fun x => if dep_hit (h_cfg h) 0 (c_n_layers (h_cfg h)) x then DEP_MASK else h_dep h x) h).
Proof. reflexivity. Qed.

(** ** The invariant is kept by every call. *)
Lemma step_inv h o ok h' : inv h -> sized h o -> steps h o ok h' -> inv h'.
Proof.
  intros I SZ ST. unfold HandleHist.steps in ST. destruct (kind_of o) eqn:K.
  - pose proof (setter_wp o h K I SZ) as W. unfold wp in W. destruct ok, ST as (v & E); now rewrite E in W.
  - pose proof (getter_pure cosd acosd o h K) as P. destruct ok, ST as (v & E); rewrite E in P; now subst.
  - pose proof (solve_SR cosd acosd o h K I) as P. unfold tr_SR in P. destruct ok, ST as (v & E); rewrite E in P; apply P.
  - destruct o; try discriminate K. destruct (solve2_part cosd acosd h fx I) as [E0|[E0|(h2 & S & _ & [[E0 _]|[E0 I2]])]];
      destruct ok, ST as (v & E); rewrite E in E0; try discriminate E0; injection E0; intros; subst; auto; apply S.
  - destruct o; try discriminate K. rewrite clear_ok in ST. destruct ok, ST as (v & E); try discriminate E.
    injection E as <- <-. now apply inv_setd.
Qed.

Lemma step_alloc h o ok h' : inv h -> steps h o ok h' -> h_alloc h' = h_alloc h.
Proof.
  intros I ST. unfold HandleHist.steps in ST. destruct (kind_of o) eqn:K.
  - pose proof (keeps_setter cosd acosd o (or_introl K) h) as W. destruct ok, ST as (v & E); rewrite E in W; apply W.
  - pose proof (getter_pure cosd acosd o h K) as P. destruct ok, ST as (v & E); rewrite E in P; now subst.
  - pose proof (solve_SR cosd acosd o h K I) as P. unfold tr_SR in P. destruct ok, ST as (v & E); rewrite E in P; apply P.
  - destruct o; try discriminate K. destruct (solve2_part cosd acosd h fx I) as [E0|[E0|(h2 & S & _ & [[E0 _]|[E0 I2]])]];
      destruct ok, ST as (v & E); rewrite E in E0; try discriminate E0; injection E0; intros; subst; auto; apply S.
  - pose proof (keeps_setter cosd acosd o (or_intror K) h) as W. destruct ok, ST as (v & E); rewrite E in W; apply W.
Qed.

(** The configuration changes only when xrtm_solution_2 fails. *)
Definition broke (o : op) (ok : bool) : bool := match o with Solution2 _ => negb ok | _ => false end.

Lemma step_cfg h o ok h' : inv h -> steps h o ok h' -> broke o ok = false -> h_cfg h' = h_cfg h.
Proof.
  intros I ST B. unfold HandleHist.steps in ST. destruct (kind_of o) eqn:K.
  - pose proof (keeps_setter cosd acosd o (or_introl K) h) as W. destruct ok, ST as (v & E); rewrite E in W; apply W.
  - pose proof (getter_pure cosd acosd o h K) as P. destruct ok, ST as (v & E); rewrite E in P; now subst.
  - pose proof (solve_SR cosd acosd o h K I) as P. unfold tr_SR in P. destruct ok, ST as (v & E); rewrite E in P; apply P.
  - destruct o; try discriminate K. cbn in B. destruct ok; [|discriminate]. destruct ST as (v & E).
    destruct (solve2_part cosd acosd h fx I) as [E0|[E0|(h2 & S & _ & [[E0 _]|[E0 I2]])]];
      rewrite E in E0; try discriminate E0; injection E0; intros; subst; auto; apply S.
  - pose proof (keeps_setter cosd acosd o (or_intror K) h) as W. destruct ok, ST as (v & E); rewrite E in W; apply W.
Qed.

(** Either way the dimensions and the required inputs stay the same. *)
Lemma required_rel c a : cfg_rel c a -> required c = required a.
Proof.
  intros [->|[_ ->]]; auto. unfold required, kernel_type. unfold has_slv. cbn [c_solvers c_n_umus c_n_layers c_n_kernels c_kernels with_derivs].
  assert (EO : forall k, k <> 0%N -> has_opt (with_derivs (N.lxor (c_options a) OPT_CALC_DERIVS) 0 a) (bit k) = has_opt a (bit k)).
  { intros k Hk. unfold has_opt. cbn. unfold OPT_CALC_DERIVS. rewrite !tst_bit, N.lxor_spec, bit_testbit.
    destruct (N.eqb_spec 0 k); [congruence|]. now rewrite xorb_false_r. }
  unfold OPT_PSA, OPT_OUTPUT_AT_LEVELS, OPT_OUTPUT_AT_TAUS, OPT_SOURCE_SOLAR, OPT_SOURCE_THERMAL.
  now rewrite !EO by discriminate.
Qed.

Lemma required_alloc h : inv h -> required (h_cfg h) = required (h_alloc h).
Proof. intro I. apply required_rel, (k_cfg _ (i_core _ _ I)). Qed.

(** ** Flags *)
Lemma step_mono h o ok h' f : inv h -> steps h o ok h' -> isflag f = true -> isset h f -> isset h' f.
Proof.
  intros I ST F S0. unfold HandleHist.steps in ST.
  assert (RU : Rup (h_mem h) (h_mem h') -> isset h' f).
  { intro R. destruct (R f F) as [E|E]; unfold isset in *; congruence. }
  assert (RS : SR h h' -> isset h' f).
  { intros (_ & _ & _ & _ & M). unfold isset in *. rewrite M; auto; try (intros ->; discriminate F). right. intros i ->. discriminate F. }
  destruct (kind_of o) eqn:K.
  - pose proof (flags_up cosd acosd o (or_introl K) h) as W. destruct ok, ST as (v & E); rewrite E in W; auto.
  - pose proof (getter_pure cosd acosd o h K) as P. destruct ok, ST as (v & E); rewrite E in P; now subst.
  - pose proof (solve_SR cosd acosd o h K I) as P. unfold tr_SR in P. destruct ok, ST as (v & E); rewrite E in P; auto.
  - destruct o; try discriminate K. destruct (solve2_part cosd acosd h fx I) as [E0|[E0|(h2 & S & _ & [[E0 _]|[E0 I2]])]];
      destruct ok, ST as (v & E); rewrite E in E0; try discriminate E0; injection E0; intros; subst; auto.
    destruct S as (_ & _ & _ & _ & M). change (isset h2 f). unfold isset in *. rewrite M; auto; try (intros ->; discriminate F).
    right. intros i ->. discriminate F.
  - pose proof (flags_up cosd acosd o (or_intror K) h) as W. destruct ok, ST as (v & E); rewrite E in W; auto.
Qed.

Lemma owner_fl f : isflag f = true -> (forall i, f <> FlG i) -> exists x, owner f = Some x /\ fl x = f.
Proof. destruct f; try discriminate; intros _ N; try (eexists; split; reflexivity). now elim (N i). Qed.

(** A flag that appears was set by a call about its quantity, accepted or one of the two
    that leave traces when they are rejected. *)
Lemma step_new h o ok h' x : inv h -> sized h o -> steps h o ok h' -> isflag (fl x) = true -> isset h' (fl x) ->
  isset h (fl x) \/ (changes o x = true /\ (ok = true \/ torn o = true)).
Proof.
  intros I SZ ST F S'.
  assert (OW : owner (fl x) = Some x) by (destruct x; try reflexivity; discriminate F).
  destruct (changes o x) eqn:C.
  - destruct ok; [auto|]. destruct (torn o) eqn:T; [auto|]. left.
    assert (K : kind_of o = Setter) by (destruct o; try discriminate C; reflexivity).
    destruct ST as (e & E). destruct (simple o) eqn:S.
    + pose proof (simple_R cosd acosd h o (i_core _ _ I) SZ S) as R. unfold HandleTable.R in R.
      destruct (accept (h_cfg h) o); [congruence|]. destruct R as (e' & R). rewrite R in E. injection E as <- <-. exact S'.
    + pose proof (torn_not cosd acosd o K S T h) as R. rewrite E in R. unfold isset in *. now rewrite <- (R _ F).
  - left. pose proof (only_exec cosd acosd o h) as O. unfold HandleHist.steps in ST.
    assert (TC : tch o (fl x) = false).
    { unfold tch. rewrite OW, C. cbn [orb]. destruct (kind_of o), x; cbn [fl]; reflexivity. }
    unfold isset in *. destruct ok, ST as (v & E); rewrite E in O; now rewrite <- O.
Qed.

Lemma fl_isflag x : isflag (fl x) = true \/ fl x = VariedUpd.
Proof. destruct x; auto. Qed.

Lemma simple_sets h o x : core h -> simple o = true -> accept (h_cfg h) o = true -> iib h = true ->
  changes o x = true -> needed (h_alloc h) (fl x) = true -> In (fl x, VZ 1) (writes h o).
Proof.
  intros C S A B CH N. pose proof (cfg_dims _ _ (k_cfg _ C)) as KC. pose proof (de_nl _ _ KC) as E1.
  pose proof (de_ks _ _ KC) as E2.
  destruct o; try discriminate S; destruct x; try discriminate CH; try discriminate N; cbn [changes] in CH; cbn [writes fl];
    rewrite ?B;
    repeat match goal with H : _ && _ = true |- _ => apply andb_true_iff in H as [? ?] end;
    repeat match goal with H : (_ =? _) = true |- _ => apply Z.eqb_eq in H; subst end;
    try solve [repeat first [now left | right]];
    try solve [apply in_or_app; right; now left];
    try solve [apply in_or_app; left; apply in_rowf; eexists; split; [apply in_zseq|right; auto]; cbn [needed fl] in N; rewrite ?in_range_iff in N; lia];
    try solve [apply in_rowf; eexists; split; [apply in_zseq|right; auto]; cbn [needed fl] in N; rewrite ?andb_true_iff, ?in_range_iff in N; rewrite ?E2; lia].
Qed.

Lemma mem_post c o h : h_mem (post c o h) = h_mem h.
Proof. unfold post. destruct (dbits c o) as [[[m a] b]|]; reflexivity. Qed.

Lemma step_set h o h' x : inv h -> sized h o -> steps h o true h' -> changes o x = true ->
  In x (required (h_cfg h)) -> isset h' (fl x).
Proof.
  intros I SZ ST C RQ. pose proof (required_needed cosd h x I RQ) as N.
  pose proof (needed_isflag _ _ N) as F.
  assert (K : kind_of o = Setter) by (destruct o; try discriminate C; reflexivity).
  destruct (iib h) eqn:B.
  2:{ eapply step_mono; eauto. now apply (i_ready _ _ I). }
  destruct ST as (v & E). destruct (simple o) eqn:S.
  - pose proof (simple_R cosd acosd h o (i_core _ _ I) SZ S) as R. unfold HandleTable.R in R.
    destruct (accept (h_cfg h) o) eqn:A; [|destruct R; congruence]. rewrite R in E. injection E as <- <-.
    unfold isset, effect. rewrite mem_post. apply apw_val; [now apply simple_sets; auto; apply (i_core _ _ I)|].
    intros u Hu. exact (wk_flag1 _ _ _ (wok_simple cosd h o (i_core _ _ I) S A) _ _ Hu F).
  - destruct o; try discriminate S; try discriminate K; destruct x; try discriminate C; try discriminate N.
    + pose proof (out_taus_wp cosd acosd h _ I SZ) as W. unfold wp in W. rewrite E in W. apply W.
    + pose proof (out_thetas_wp cosd acosd h _ I SZ) as W. unfold wp in W. rewrite E in W. apply W.
    + match type of E with exec (SetTheta0 ?z) _ = _ => pose proof (theta_0_wp cosd acosd h z I) as W end. unfold wp in W. rewrite E in W. apply W.
    + match type of E with exec ?o _ = _ => pose proof (coef_wp o h eq_refl I SZ) as W; set (oo := o) in * end. unfold wp in W. rewrite E in W.
      destruct W as (_ & I' & _ & W1 & W2). cbn [fl needed] in *. apply andb_true_iff in N as [N1 N2]. rewrite in_range_iff in N2.
      rewrite <- (de_nl _ _ (cfg_dims _ _ (k_cfg _ (i_core _ _ I)))) in N2.
      destruct (W2 _ N2 C) as [(_ & _ & W3 & _) _]. apply W3.
      destruct (iib h') eqn:B'; auto. pose proof (keeps_setter cosd acosd oo (or_introl K)) as KK.
      pose proof (only_exec cosd acosd oo h) as OO. rewrite E in OO. unfold iib in *. rewrite OO in B' by reflexivity. congruence.
    + match type of E with exec ?o _ = _ => pose proof (coef_wp o h eq_refl I SZ) as W; set (oo := o) in * end. unfold wp in W. rewrite E in W.
      destruct W as (_ & I' & _ & W1 & W2). cbn [fl needed] in *. apply andb_true_iff in N as [N1 N2]. rewrite in_range_iff in N2.
      rewrite <- (de_nl _ _ (cfg_dims _ _ (k_cfg _ (i_core _ _ I)))) in N2.
      destruct (W2 _ N2 C) as [(_ & _ & W3 & _) _]. apply W3.
      destruct (iib h') eqn:B'; auto.
      pose proof (only_exec cosd acosd oo h) as OO. rewrite E in OO. unfold iib in *. rewrite OO in B' by reflexivity. congruence.
Qed.

(** Readiness comes once and stays. *)
Lemma step_ready h o ok h' : inv h -> steps h o ok h' -> iib h = false -> iib h' = false.
Proof.
  intros I ST B. unfold HandleHist.steps in ST. pose proof (only_exec cosd acosd o h) as OO.
  destruct (kind_of o) eqn:K.
  3:{ pose proof (solve_SR cosd acosd o h K I) as P. unfold tr_SR in P. destruct ok, ST as (v & E); rewrite E in P; now apply P. }
  all: assert (T : tch o InputsInit = false) by (cbn; now rewrite K);
    unfold iib in *; destruct ok, ST as (v & E); rewrite E in OO; now rewrite OO.
Qed.
Lemma step_unready h o ok h' : steps h o ok h' -> kind_of o <> Solve -> iib h' = iib h.
Proof.
  intros ST K. unfold HandleHist.steps in ST. pose proof (only_exec cosd acosd o h) as OO.
  assert (T : tch o InputsInit = false) by (cbn; destruct (kind_of o); congruence).
  unfold iib in *; destruct ok, ST as (v & E); rewrite E in OO; now rewrite OO.
Qed.

(** Coefficients of set layers keep having values, unless a coefficient setter was rejected. *)
Lemma step_coef h o ok h' : inv h -> sized h o -> steps h o ok h' -> (is_set_coef o = true -> ok = true) ->
  coefdef h -> coefdef h'.
Proof.
  intros I SZ ST NC D. pose proof (step_alloc h o ok h' I ST) as EA. unfold HandleHist.steps in ST.
  pose proof (only_exec cosd acosd o h) as OO.
  assert (O : forall l, tch o l = false -> h_mem h' l = h_mem h l) by (destruct ok, ST as (v & E); rewrite E in OO; auto).
  intros US i j k Hi S Hj Hk. rewrite EA in *.
  destruct (changes o (ICoef i)) eqn:C.
  - assert (IS : is_set_coef o = true) by (destruct o; try discriminate C; reflexivity).
    rewrite (NC IS) in ST. destruct ST as (v & E).
    pose proof (coef_wp o h IS I SZ) as W. unfold wp in W. rewrite E in W. destruct W as (_ & I' & _ & W1 & W2).
    assert (KC := cfg_dims _ _ (k_cfg _ (i_core _ _ I))). rewrite <- (de_nl _ _ KC) in Hi.
    destruct (W2 i Hi C) as [(V1 & V2 & _ & _) _]. assert (ncl h' i = ncof (h_cfg h) o i) by (unfold ncl; now rewrite V1).
    assert (KC' := cfg_dims _ _ (k_cfg _ (i_core _ _ I'))). rewrite V2; [discriminate| |lia].
    rewrite (de_ne _ _ KC'), EA. exact Hj.
  - assert (T : forall l, owner l = Some (ICoef i) -> tch o l = false).
    { intros l Hl. unfold tch. rewrite Hl, C. cbn [orb]. destruct (kind_of o), l; try reflexivity; discriminate Hl. }
    unfold isset, ncl in *. rewrite (O (FlCoef i)) in S by (apply T; reflexivity).
    rewrite (O (NCoefLayer i)) in Hk by (apply T; reflexivity). rewrite (O (Coef0 i j k)) by (apply T; reflexivity). now apply D.
Qed.

(** A handle that is not ready has its optical depth dependencies raised. *)
Definition fresh (h : handle) : Prop := iib h = true -> forall x, h_dep h x = DEP_MASK.
End Calls.
