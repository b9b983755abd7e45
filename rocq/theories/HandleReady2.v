(** The readiness gate, continued: what an accepted solution shows, and what suffices; and
    the release of the set-flag arrays. *)
From Coq Require Import ZArith NArith List Bool Lia SpecFloat.
From Verif Require Import Base OptionsModel OptionsSpec OptionsProofs Dbl HandleModel HandleTable HandleWp
  HandleSetters HandleInv HandleSteps HandleGetters HandleSpec HandleFrame HandleGate HandleSolve HandleHist HandleCalls
  HandleHistory HandleGetSet HandleRange HandleProofs HandleReady.
Import ListNotations.
Open Scope Z_scope.

Lemma tst_overlap a b : tst a b = true <-> overlap a b.
Proof.
  unfold tst, overlap. rewrite negb_true_iff, N.eqb_neq. split.
  - intro H. destruct (N.bits_inj_iff (N.land a b) 0) as [_ B].
    destruct (N.eq_dec (N.land a b) 0) as [E|E]; [congruence|]. exists (N.log2 (N.land a b)).
    pose proof (N.bit_log2 _ E) as Q. rewrite N.land_spec in Q. now apply andb_true_iff in Q.
  - intros (k & A & B) E. pose proof (N.land_spec a b k) as Q. rewrite E, N.bits_0, A, B in Q. discriminate.
Qed.
Lemma tst_noverlap a b : tst a b = false <-> ~ overlap a b.
Proof. rewrite <- tst_overlap. destruct (tst a b); split; congruence. Qed.

Lemma rising_nth b : forall l a, rising a b l = true <->
  (forall u, In u l -> dgt u b = false) /\ (forall i u v, nth_error (a :: l) i = Some u -> nth_error l i = Some v -> dle v u = false).
Proof.
  induction l as [|x l IH]; intro a; cbn [rising].
  - split; auto. intros _. split; [intros u []|]. intros [] u v _ Q; discriminate.
  - split.
    + intro H. apply andb_true_iff in H as [H1 H2]. apply negb_true_iff, orb_false_iff in H1 as [H1 H3].
      apply IH in H2 as [H2 H4]. split.
      * intros u [<-|Hu]; auto.
      * intros [|i] u v Q1 Q2; cbn in Q1, Q2.
        -- now injection Q1 as <-; injection Q2 as <-.
        -- now apply (H4 i).
    + intros [H1 H2]. apply andb_true_iff. split.
      * apply negb_true_iff, orb_false_iff. split; [now apply (H2 0%nat a x)|apply H1; now left].
      * apply IH. split; [intros; apply H1; now right|]. intros i u v Q1 Q2. now apply (H2 (S i) u v).
Qed.

Lemma dgt_nle a b : dgt a b = false -> dle a b = true \/ is_nan a \/ is_nan b.
Proof.
  intro H. change (dlt b a = false) in H. apply not_lt in H as [->|[->|H]]; unfold is_nan; auto.
Qed.

Lemma depths_ok_good us ls : depths_ok us ls = true -> depths_good true us ls.
Proof.
  unfold depths_ok, depths_good. cbv zeta. destruct us as [|u us].
  - intros _. split; [|split]; [discriminate|intros u []|]. intros [] u v Q; discriminate.
  - intro H. apply andb_true_iff in H as [H1 H2]. apply negb_true_iff, orb_false_iff in H1 as [H1 H3].
    apply rising_nth in H2 as [H2 H4]. split; [|split].
    + intros v Q. injection Q as <-. apply not_lt in H1 as [->|[Q|H1]]; auto; right; split; unfold is_nan; auto.
    + intros v [<-|Hv]; [|specialize (H2 v Hv); rename H2 into H3'].
      * destruct (dgt_nle _ _ H3); auto.
      * destruct (dgt_nle _ _ H3'); auto.
    + intros i a b Q1 Q2. cbn in Q2. specialize (H4 i a b Q1 Q2). apply not_le in H4 as [->|[->|H4]]; auto; right; split; unfold is_nan; auto.
Qed.

Lemma lt_not a b : dlt a b = true -> dle b a = false.
Proof. unfold dlt, dle, SFltb, SFleb. rewrite (cmp_swap b a). destruct (SFcompare a b) as [[]|]; cbn; congruence. Qed.
Lemma le_not a b : dle a b = true -> dlt b a = false.
Proof. unfold dlt, dle, SFltb, SFleb. rewrite (cmp_swap b a). destruct (SFcompare a b) as [[]|]; cbn; congruence. Qed.

Lemma depths_good_ok us ls : depths_good false us ls -> depths_ok us ls = true.
Proof.
  unfold depths_ok, depths_good. cbv zeta. intros (H1 & H2 & H3). destruct us as [|u us]; [reflexivity|].
  assert (L : forall v, In v (u :: us) -> dgt v (fold_left dadd ls d_zero) = false).
  { intros v Hv. destruct (H2 v Hv) as [Q|[Q _]]; [|discriminate]. exact (le_not _ _ Q). }
  apply andb_true_iff. split.
  - apply negb_true_iff, orb_false_iff. split; [|apply L; now left].
    destruct (H1 u eq_refl) as [Q|[Q _]]; [|discriminate]. exact (le_not _ _ Q).
  - apply rising_nth. split; [intros; apply L; now right|]. intros i a b Q1 Q2.
    destruct (H3 i a b Q1 Q2) as [Q|[Q _]]; [|discriminate]. now apply lt_not.
Qed.

Section Ready2.
Variables cosd acosd : dbl -> dbl.
Notation inv := (inv cosd).
Notation exec := (exec cosd acosd).
Notation steps := (steps cosd acosd).
Notation hist := (hist cosd acosd).

(** No solver has run since the optical depths were last set. *)
Definition depths_pending (t : list (op * bool)) : Prop :=
  (forall o ok, In (o, ok) t -> runs o = false) \/
  exists t1 o t2, t = t1 ++ (o, true) :: t2 /\ depth_setter o = true /\ forall o' ok, In (o', ok) t1 -> runs o' = false.

Lemma hist_app h0 t1 t2 h : hist h0 (t1 ++ t2) h -> exists h1, hist h0 t2 h1 /\ hist h1 t1 h.
Proof.
  revert h. induction t1 as [|[o ok] t1 IH]; intros h H.
  - exists h. split; [exact H|constructor].
  - cbn in H. inversion H as [|t h2 o' ok' h' H2 SZ ST]; subst. destruct (IH h2 H2) as (h1 & A & B).
    exists h1. split; auto. eapply hist_call; eauto.
Qed.

Lemma hist_risen h0 t h : inv h0 -> hist h0 t h -> (forall o ok, In (o, ok) t -> runs o = false) -> risen h0 h.
Proof.
  intros I H N. induction H as [|t h o ok h' H IH SZ ST]; [apply risen_refl|].
  assert (R1 : risen h0 h) by (apply IH; intros o' ok' Ho; apply (N o' ok'); now right).
  assert (R2 : risen h h').
  { apply (step_risen cosd acosd h o ok h' (hist_inv cosd acosd _ _ _ I H) ST). apply (N o ok). now left. }
  intros x b L T. apply R2; auto.
Qed.

Lemma hist_dirty h0 t h : inv h0 -> dirty h0 = true -> hist h0 t h -> depths_pending t -> dirty h = true.
Proof.
  intros I D H [N|(t1 & o & t2 & -> & DS & N)].
  - apply (dirty_risen h0); auto. eapply hist_risen; eauto.
  - destruct (hist_app _ _ _ _ H) as (h1 & H1 & H2). inversion H1 as [|t h2 o' ok' h' H3 SZ ST]; subst.
    pose proof (hist_inv cosd acosd _ _ _ I H3) as I3.
    pose proof (step_dirty cosd acosd h2 o h1 I3 SZ ST DS) as D1.
    apply (dirty_risen h1); auto. apply (hist_risen h1 t1 h); auto. eapply step_inv; eauto.
Qed.

(** An accepted call that computes. *)
Lemma created_dirty nodes c : dirty (handle0 nodes c) = true.
Proof. reflexivity. Qed.

Lemma answers_taus h : inv h -> allset h -> has_opt (h_cfg h) OPT_OUTPUT_AT_TAUS = true ->
  exec GetOutTaus h = Ret (map VD (utaus_of h)) h.
Proof.
  intros I AS O. pose proof (i_core _ _ I) as C. pose proof (cfg_dims _ _ (k_cfg _ C)) as KC.
  assert (OA : has_opt (h_alloc h) OPT_OUTPUT_AT_TAUS = true).
  { unfold OPT_OUTPUT_AT_TAUS in *. rewrite <- (opt_eq _ _ 8 KC); auto; discriminate. }
  assert (F : isset h FlUtaus) by (apply AS; cbn [needed]; exact OA).
  pose proof (getter_R cosd acosd h GetOutTaus I eq_refl Logic.I (fun _ => Logic.I)) as R. unfold HandleTable.R in R.
  cbn [gaccept andl fold_right] in R. rewrite O, (isset_flagged _ _ F) in R. cbn [andb] in R. rewrite R. apply (f_equal (fun v => Ret v h)).
  unfold gres. cbn [gcfg gcells gpost app]. unfold utaus_of. rewrite !map_map. apply map_ext_in. intros i Hi.
  apply in_zseq in Hi. unfold cellv, cd.
  assert (D : h_mem h (Utaus i) <> None).
  { apply (i_flag _ _ I) with (f := FlUtaus); auto. cbn [acc]. rewrite <- (g_out _ (k_good _ C)), OA. apply in_range_iff. rewrite <- (de_nu _ _ KC). lia. }
  destruct (h_mem h (Utaus i)) as [v|] eqn:E; [|easy]. pose proof (i_typed _ _ I _ _ E) as T. cbn [okv] in T.
  destruct v; [easy|reflexivity].
Qed.

Lemma answers_ltau h i : inv h -> allset h -> 0 <= i < c_n_layers (h_cfg h) ->
  exec (GetLtau i) h = Ret [VD (cd h (Ltau0 i))] h.
Proof.
  intros I AS Hi. pose proof (i_core _ _ I) as C. pose proof (cfg_dims _ _ (k_cfg _ C)) as KC.
  assert (Hi' : 0 <= i < c_n_layers (h_alloc h)) by (rewrite <- (de_nl _ _ KC); lia).
  assert (F : isset h (FlLtau i)) by (apply AS; cbn [needed]; now apply in_range_iff).
  pose proof (getter_R cosd acosd h (GetLtau i) I eq_refl (fun _ => Hi) (fun _ => Logic.I)) as R. unfold HandleTable.R in R.
  cbn [gaccept andl fold_right] in R. assert (IR : in_range i (c_n_layers (h_cfg h)) = true) by now apply in_range_iff.
  rewrite IR, (isset_flagged _ _ F) in R. cbn [andb] in R. rewrite R. apply (f_equal (fun v => Ret v h)).
  unfold gres. cbn [gcfg gcells gpost app map]. unfold cellv, cd.
  assert (D : h_mem h (Ltau0 i) <> None).
  { apply (i_flag _ _ I) with (f := FlLtau i); auto. cbn [acc]. now apply in_range_iff. }
  destruct (h_mem h (Ltau0 i)) as [v|] eqn:E; [|easy]. pose proof (i_typed _ _ I _ _ E) as T. cbn [okv] in T.
  destruct v; [easy|reflexivity].
Qed.

(** The depths as the getters report them. *)
Definition depths_reported (h : handle) (us ls : list dbl) : Prop :=
  exec GetOutTaus h = Ret (map VD us) h /\ Z.of_nat (length ls) = c_n_layers (h_cfg h) /\
  forall i, within i (c_n_layers (h_cfg h)) -> exec (GetLtau i) h = Ret [VD (at1 ls i)] h.

Lemma ltaus_at h i : 0 <= i < c_n_layers (h_cfg h) -> at1 (ltaus_of h) i = cd h (Ltau0 i).
Proof.
  intro Hi. unfold at1, ltaus_of. rewrite (nth_indep _ d_zero (cd h (Ltau0 0))).
  - rewrite (map_nth (fun i => cd h (Ltau0 i))). unfold zseq. rewrite Z.sub_0_r.
    change (cd h (Ltau0 (nth (Z.to_nat i) (map (fun k => 0 + Z.of_nat k) (seq 0 (Z.to_nat (c_n_layers (h_cfg h))))) (0 + Z.of_nat 0))) = cd h (Ltau0 i)).
    rewrite (map_nth (fun k => 0 + Z.of_nat k)). rewrite seq_nth by lia. do 2 f_equal. lia.
  - rewrite map_length. pose proof (length_zseq 0 (c_n_layers (h_cfg h))). lia.
Qed.

Lemma reported_ok h : inv h -> allset h -> has_opt (h_cfg h) OPT_OUTPUT_AT_TAUS = true ->
  depths_reported h (utaus_of h) (ltaus_of h).
Proof.
  intros I AS O. split; [now apply answers_taus|]. split.
  - unfold ltaus_of. rewrite map_length. pose proof (g_nl _ (k_good _ (i_core _ _ I))).
    pose proof (de_nl _ _ (cfg_dims _ _ (k_cfg _ (i_core _ _ I)))). rewrite length_zseq; lia.
  - intros i Hi. rewrite answers_ltau by auto. now rewrite ltaus_at.
Qed.

Lemma map_VD_inj a : forall b, map VD a = map VD b -> a = b.
Proof. induction a as [|x a IH]; intros [|y b] E; try discriminate; auto. injection E as -> E. f_equal. auto. Qed.

Lemma reported_unique h us ls us' ls' : depths_reported h us ls -> depths_reported h us' ls' -> us = us' /\ ls = ls'.
Proof.
  intros (A1 & A2 & A3) (B1 & B2 & B3). split.
  - rewrite A1 in B1. injection B1 as B1. now apply map_VD_inj.
  - apply (nth_ext _ _ d_zero d_zero); [lia|]. intros n Hn.
    assert (W : within (Z.of_nat n) (c_n_layers (h_cfg h))) by (unfold within; lia).
    specialize (A3 _ W). specialize (B3 _ W). rewrite A3 in B3. injection B3 as B3. unfold at1 in B3. now rewrite Nat2Z.id in B3.
Qed.

(** ** Soundness *)
Lemma gate_sound h0 t h o v h' : inv h0 -> fresh_flags h0 -> dirty h0 = true -> hist h0 t h ->
  kind_of o = Solve -> runs o = true -> exec o h = Ret v h' ->
  (forall x, In x (required (h_cfg h0)) -> maybe t x) /\
  (has_opt (h_cfg h) OPT_OUTPUT_AT_TAUS = true -> depths_pending t ->
     exists us ls, depths_reported h us ls /\ depths_good true us ls) /\
  varied_ok h = true.
Proof.
  intros I Z0 D0 H K R E. pose proof (hist_inv cosd acosd _ _ _ I H) as I1.
  destruct (runs_pass cosd acosd h o v h' I1 K R E) as (h1 & P). destruct (pre_pass cosd h tt h1 I1 P) as (AS & T & V & _).
  split; [|split; auto].
  - apply (allset_maybe cosd acosd h0 t h); auto.
  - intros O DP. exists (utaus_of h), (ltaus_of h). split; [now apply reported_ok|].
    unfold taus_ok in T. rewrite O, (hist_dirty h0 t h I D0 H DP) in T. cbn in T. now apply depths_ok_good.
Qed.

Lemma step_upd_fail h h' : inv h -> steps h UpdateVaried false h' -> h' = h.
Proof.
  intros I1 (e & E). destruct (missing_code e) as [k|] eqn:MC.
  - now destruct (solve_missing cosd acosd h UpdateVaried e h' k eq_refl I1 E MC) as (_ & _ & -> & _).
  - cbn [HandleModel.exec] in E. unfold done, update_varied_layers, need_opt in E. rewrite !bind_assoc in E.
    rewrite (bind_eq cfg _ h (h_cfg h) h eq_refl) in E. unfold reject_if at 1 in E.
    destruct (negb (has_opt _ _)); [injection E as _ <-; reflexivity|]. erewrite bind_eq in E by reflexivity. rewrite bind_assoc in E.
    destruct (iib_rd cosd h I1) as (z & Ez & Bz). rewrite (bind_eq _ _ _ _ _ Ez), bind_assoc, Bz in E.
    destruct (gate_ok cosd h I1) as [[B N]|(h1 & G & _ & B1 & E1)].
    + rewrite B in E. destruct (check_ok cosd h I1 B) as [[_ E1]|(Z1 & _)]; [|congruence].
      rewrite bind_assoc in E. unfold bind in E. rewrite E1 in E. apply Z.eqb_neq in N. unfold reject_if in E. rewrite N in E.
      injection E as <- <-. discriminate MC.
    + destruct (iib h).
      * destruct E1 as [E1 _]. unfold bind in E. rewrite E1 in E. discriminate E.
      * unfold bind, ret in E. discriminate E.
Qed.

(** The derivative bookkeeping was brought up to date by an accepted call. *)
Lemma varied_called h0 t h : inv h0 -> h_mem h0 VariedUpd = Some (VZ 1) -> hist h0 t h ->
  has_opt (h_cfg h) OPT_CALC_DERIVS = true -> varied_ok h = true -> In (UpdateVaried, true) t.
Proof.
  intros I V0 H O V. unfold varied_ok in V. rewrite O in V. cbn [negb orb] in V.
  assert (N : h_mem h VariedUpd = Some (VZ 1) \/ In (UpdateVaried, true) t).
  { clear O V. induction H as [|t h o ok h' H IH SZ ST]; auto. destruct IH as [IH|IH]; [|now right; right].
    pose proof (hist_inv cosd acosd _ _ _ I H) as I1. 
    assert (U : (o = UpdateVaried /\ ok = true) \/ h_mem h' VariedUpd = h_mem h VariedUpd).
    { pose proof (only_exec cosd acosd o h) as OO. unfold HandleHist.steps in ST.
      assert (T : tch o VariedUpd = false -> h_mem h' VariedUpd = h_mem h VariedUpd)
        by (destruct ok, ST as (v & E); rewrite E in OO; auto).
      destruct (tch o VariedUpd) eqn:TC; [|auto].
      assert (o = UpdateVaried) as -> by (destruct o; try discriminate TC; reflexivity).
      destruct ok; [auto|]. right. now rewrite (step_upd_fail h h' I1 ST). }
    destruct U as [[-> ->]|U]; [right; now left|left; congruence]. }
  destruct N as [N|N]; auto. rewrite N in V. discriminate.
Qed.

(** ** Completeness *)
Lemma gate_complete h0 t h s oo n fx : inv h0 -> fresh_flags h0 -> hist h0 t h -> coef_clean t ->
  request_ok (h_cfg h) s oo n -> (forall x, In x (required (h_cfg h0)) -> surely t x) ->
  (has_opt (h_cfg h) OPT_OUTPUT_AT_TAUS = true -> exists us ls, depths_reported h us ls /\ depths_good false us ls) ->
  (has_opt (h_cfg h) OPT_CALC_DERIVS = true -> h_mem h VariedUpd = Some (VZ 0)) ->
  exists h', exec (Solution s oo n fx) h = if fx_ok fx then Ret [] h' else Fail EInt h'.
Proof.
  intros I Z0 H CC (R1 & R2 & R3 & R4 & R5) AS DG VU. pose proof (hist_inv cosd acosd _ _ _ I H) as I1.
  assert (ALL : allset h).
  { intros f N. destruct (needed_required cosd h f I1 N) as (x & <- & RQ).
    rewrite (hist_required cosd acosd h0 t h I H) in RQ.
    exact (hist_sure cosd acosd h0 t h x I H RQ (AS x RQ)). }
  assert (M0 : miss h (required (h_cfg h)) = 0).
  { apply miss_zero. intros x RQ. pose proof (required_needed cosd h x I1 RQ) as N.
    apply (fset_isset cosd h); auto. apply (needed_isflag _ _ N). }
  cbn [HandleModel.exec]. unfold done, solution.
  apply tst_overlap in R1, R2, R3. 
  assert (R5' : forall m, tst oo m = true -> (forall k, N.testbit m k = true -> N.testbit (ors [OUT_RADIANCE_MEAN; OUT_FLUX; OUT_FLUX_DIVERGENCE]) k = true) ->
     check_solvers_va s [SOLVER_SINGLE; 0%N] = 0).
  { intros m Q MM. apply tst_overlap in Q as (k & Q1 & Q2).
    assert (NS : ~ overlap s SOLVER_SINGLE) by (apply R5; exists k; auto). apply tst_noverlap in NS.
    cbn [check_solvers_va]. rewrite NS. reflexivity. }
  assert (SUB : forall m, In m [OUT_RADIANCE_MEAN; OUT_FLUX; OUT_FLUX_DIVERGENCE] -> tst oo m && negb (check_solvers_va s [SOLVER_SINGLE; 0%N] =? 0) = false).
  { intros m Hm. destruct (tst oo m) eqn:Q; auto. rewrite (R5' m Q); [reflexivity|]. intros k Tk.
    cbn [ors fold_right]. rewrite !N.lor_spec. destruct Hm as [<-|[<-|[<-|[]]]]; rewrite Tk; now rewrite ?orb_true_r. }
  assert (R4' : tst oo OUT_RADIANCE && (n <=? 0) = false).
  { destruct (tst oo OUT_RADIANCE) eqn:Q; auto. apply tst_overlap in Q. apply R4 in Q. cbn. lia. }
  rewrite R1. cbn [negb]. rewrite !bind_assoc.
  assert (RF : forall (k : M (list val)) e, (reject_if false e;; k) h = k h) by reflexivity.
  rewrite RF. rewrite bind_assoc. rewrite (bind_eq cfg _ h (h_cfg h) h eq_refl). rewrite R2. cbn [negb]. rewrite !bind_assoc, RF.
  rewrite R3. cbn [negb]. rewrite !bind_assoc, RF. rewrite R4', !bind_assoc, RF.
  rewrite (SUB OUT_RADIANCE_MEAN) by (cbn; auto). rewrite !bind_assoc, RF.
  rewrite (SUB OUT_FLUX) by (cbn; auto). rewrite !bind_assoc, RF.
  rewrite (SUB OUT_FLUX_DIVERGENCE) by (cbn; auto). rewrite !bind_assoc, RF.
  destruct (gate_ok cosd h I1) as [[B N]|(h1 & G & I2 & B1 & E1)]; [congruence|].
  assert (P : solution_preprocess h = Ret tt h1).
  { rewrite (pre_ok cosd h h1 I1 G I2 B1 E1).
    assert (MM : forall l, l <> InputsInit -> h_mem h1 l = h_mem h l).
    { intros l L. unfold gated in G. destruct (iib h); [|now subst]. destruct G as (_ & _ & _ & -> & _). apply upd_other. congruence. }
    assert (EC : h_cfg h1 = h_cfg h) by (unfold gated in G; destruct (iib h); [apply G|now subst]).
    replace (taus_ok h1) with true; [replace (varied_ok h1) with true; [reflexivity|]|].
    - unfold varied_ok. rewrite EC. destruct (has_opt (h_cfg h) OPT_CALC_DERIVS); [|reflexivity].
      rewrite MM by discriminate. now rewrite (VU eq_refl).
    - unfold taus_ok. rewrite EC. destruct (has_opt (h_cfg h) OPT_OUTPUT_AT_TAUS) eqn:O; [|reflexivity].
      destruct (DG eq_refl) as (us & ls & DR & DGO). destruct (reported_unique h _ _ _ _ DR (reported_ok h I1 ALL O)) as [-> ->].
      apply depths_good_ok in DGO. symmetry. apply orb_true_iff. right. rewrite <- DGO. 
      unfold utaus_of, ltaus_of, cd. rewrite EC. f_equal; apply map_ext; intro; rewrite MM by discriminate; reflexivity. }
  rewrite bind_assoc, (bind_eq _ _ _ _ _ P).
  assert (D1 : coefdef h1).
  { apply (coefdef_SR cosd h h1); [now apply SR_gated|]. exact (hist_coef cosd acosd h0 t h I (coefdef0 h0 Z0) H CC). }
  destruct (get_solution_wp cosd h1 fx EInt I2 (ready_allset cosd h1 I2 B1) D1) as (h2 & _ & E2).
  exists h2. unfold bind. rewrite E2. destruct (fx_ok fx); reflexivity.
Qed.

(* ------------------------------------------------------------------------- *)
(** * Release of the set-flag arrays                                          *)

Lemma destroy_frees h : inv h -> exists h', destroy_flags h = Ret tt h' /\
  forall b, h_live h' b = match b with BKFunc => negb (iib h) && (c_n_kernels (h_cfg h) >? 0) | _ => false end.
Proof.
  intro I. pose proof (k_live _ (i_core _ _ I)) as L. pose proof (de_nk _ _ (cfg_dims _ _ (k_cfg _ (i_core _ _ I)))) as EK.
  unfold destroy_flags. rewrite (bind_eq cfg _ h (h_cfg h) h eq_refl).
  destruct (iib_rd cosd h I) as (z & Ez & Bz). rewrite (bind_eq _ _ _ _ _ Ez), Bz. destruct (iib h) eqn:B.
  - unfold when. rewrite <- EK in L. destruct (c_n_kernels (h_cfg h) >? 0) eqn:KZ.
    + unfold free, bind, ret. cbn [h_live blk_eqb]. repeat (rewrite L; cbn [andb blk_eqb h_live]).
      eexists. split; [reflexivity|]. intros []; reflexivity.
    + unfold free, bind, ret. cbn [h_live blk_eqb]. repeat (rewrite L; cbn [andb blk_eqb h_live]).
      eexists. split; [reflexivity|]. intros []; cbn [h_live blk_eqb]; rewrite ?L; reflexivity.
  - cbn [when]. exists h. split; [reflexivity|]. rewrite <- EK in L. intros []; rewrite L; reflexivity.
Qed.

Lemma step_live h o ok h' b : inv h -> sized h o -> steps h o ok h' -> h_live h' b = true -> h_live h b = true.
Proof.
  intros I SZ ST. pose proof (step_inv cosd acosd h o ok h' I SZ ST) as I'.
  rewrite (k_live _ (i_core _ _ I)), (k_live _ (i_core _ _ I')), (step_alloc cosd acosd h o ok h' I ST).
  assert (M : iib h' = true -> iib h = true).
  { intro B'. destruct (iib h) eqn:B; auto. rewrite (step_ready cosd acosd h o ok h' I ST B) in B'. discriminate. }
  destruct b; auto; rewrite !andb_true_iff; intuition.
Qed.

Lemma hist_live h0 t h b : inv h0 -> hist h0 t h -> h_live h b = true -> h_live h0 b = true.
Proof.
  intros I H. induction H as [|t h o ok h' H IH SZ ST]; auto. intro L. apply IH.
  exact (step_live h o ok h' b (hist_inv cosd acosd _ _ _ I H) SZ ST L).
Qed.

(** * Once ready, always ready *)
Lemma ready_no_missing h o e h' : inv h -> iib h = false -> exec o h = Fail e h' -> kind_of o = Solve -> missing_code e = None.
Proof.
  intros I B E K. destruct (missing_code e) as [k|] eqn:C; auto.
  destruct (solve_missing cosd acosd h o e h' k K I E C) as (_ & _ & _ & Q). congruence.
Qed.

Lemma accepted_ready h o v h' : inv h -> kind_of o = Solve -> runs o = true \/ o = UpdateVaried -> exec o h = Ret v h' -> iib h' = false.
Proof.
  intros I K R E. destruct R as [R| ->].
  - destruct (runs_pass cosd acosd h o v h' I K R E) as (h1 & P).
    destruct (pre_pass cosd h tt h1 I P) as (_ & _ & _ & S1 & B1 & _).
    pose proof (solve_SR cosd acosd o h K I) as S. unfold tr_SR in S. rewrite E in S.
    assert (GS : forall fx, get_solution fx EInt h1 = Ret tt h' -> iib h' = false).
    { intros fx Q. pose proof (getsol_SR cosd h1 fx EInt (proj1 S1)) as W. unfold tr_SR in W. rewrite Q in W.
      destruct W as (_ & _ & _ & W & _). auto. }
    assert (DN : forall m : M unit, done m h = Ret v h' -> m h = Ret tt h').
    { intros m. unfold done, bind, ret. destruct (m h) as [[] h2|? ?|]; try discriminate. intro Q. now injection Q as _ <-. }
    assert (SOL : forall s oo n fx, solution s oo n fx h = Ret tt h' -> iib h' = false).
    { intros s oo n fx Q. unfold solution in Q.
      assert (RJ : forall b e (m : M unit), (reject_if b e;; m) h = Ret tt h' -> m h = Ret tt h').
      { intros b e m. unfold reject_if. destruct b; [discriminate|auto]. }
      apply RJ in Q. rewrite (bind_eq cfg _ h (h_cfg h) h eq_refl) in Q. do 6 apply RJ in Q.
      rewrite (bind_eq _ _ _ _ _ P) in Q. eauto. }
    assert (WR : forall (m : M unit), wrap m h = Ret tt h' -> m h = Ret tt h').
    { intros m. unfold wrap. destruct (m h); try discriminate. auto. }
    destruct o; try discriminate K; try discriminate R; cbn [HandleModel.exec] in E; apply DN in E;
      try (unfold radiance, mean_radiance, flux in E; apply WR in E); eauto.
    unfold local_query in E. rewrite (bind_eq _ _ _ _ _ P) in E.
    do 3 (apply bind_inv in E as (? & ? & ?Q & E)).
    unfold cfg in Q. injection Q as <- <-. unfold CHECK_INDEX_RANGE, reject_if in *.
    repeat match goal with H : (if ?b then fail _ else ret tt) _ = Ret _ _ |- _ => destruct b; [discriminate H|injection H as <- <-] end.
    eauto.
  - cbn [HandleModel.exec] in E. unfold done, update_varied_layers, need_opt in E. rewrite !bind_assoc in E.
    rewrite (bind_eq cfg _ h (h_cfg h) h eq_refl) in E. unfold reject_if at 1 in E.
    destruct (negb (has_opt _ _)); [discriminate E|]. erewrite bind_eq in E by reflexivity. rewrite bind_assoc in E.
    destruct (iib_rd cosd h I) as (z & Ez & Bz). rewrite (bind_eq _ _ _ _ _ Ez), bind_assoc, Bz in E.
    destruct (gate_ok cosd h I) as [[B N]|(h1 & G & _ & B1 & E1)].
    + rewrite B in E. destruct (check_ok cosd h I B) as [[_ E1]|(Z1 & _)]; [|congruence].
      rewrite bind_assoc in E. unfold bind in E. rewrite E1 in E. apply Z.eqb_neq in N. unfold reject_if in E. rewrite N in E. discriminate E.
    + destruct (iib h).
      * destruct E1 as [E1 _]. unfold bind in E. rewrite E1 in E. injection E as _ <-. unfold iib in *. cbn [h_mem]. now rewrite upd_other by discriminate.
      * unfold bind, ret in E. injection E as _ <-. subst. unfold iib in *. cbn [h_mem]. now rewrite upd_other by discriminate.
Qed.
End Ready2.
