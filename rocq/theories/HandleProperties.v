(** C06 to C13: what a user of a handle can rely on, over all histories of calls. *)
From Coq Require Import ZArith NArith List Bool Lia SpecFloat.
From Verif Require Import Base OptionsModel OptionsSpec OptionsProofs OptionsProperties Dbl HandleModel HandleTable HandleWp
  HandleSetters HandleInv HandleSteps HandleGetters HandleSpec HandleFrame HandleGate HandleSolve HandleHist HandleCalls
  HandleHistory HandleGetSet HandleRange HandleProofs HandleReady HandleReady2.
Import ListNotations.
Open Scope Z_scope.

(** [reach cosd acosd nodes a t h]: a handle created with the arguments [a] is in state [h] after the
    calls [t] (latest first, each with whether it was accepted).  [nodes]: the quadrature
    nodes; [cosd], [acosd]: cosine of, and arc cosine in, degrees.  Array arguments have the
    documented sizes ([kernels_long_enough], [sized] in [hist]). *)
Definition reach (cosd acosd : dbl -> dbl) (nodes : Z -> dbl) (a : create_args) (t : list (op * bool)) (h : handle) : Prop :=
  kernels_long_enough a /\ exists h0, create nodes a = Ok h0 /\ hist cosd acosd h0 t h.

(** The number of coefficients of a layer: as reported, or the maximum when it is not. *)
Definition ncoef_max (cosd acosd : dbl -> dbl) (h : handle) (i : Z) : Z :=
  match exec cosd acosd (GetNCoef i) h with Ret [VZ n] _ => n | _ => c_n_coef (h_cfg h) end.

Section Facts.
Variables cosd acosd : dbl -> dbl.
Notation inv := (inv cosd).
Notation exec := (exec cosd acosd).
Notation hist := (hist cosd acosd).
Notation reach := (reach cosd acosd).

Lemma reach_facts nodes a t h : reach nodes a t h -> exists h0, create nodes a = Ok h0 /\ hist h0 t h /\
  inv h0 /\ inv h /\ iib h0 = true /\ h_alloc h0 = h_cfg h0 /\ fresh_flags h0 /\ coefdef h0 /\ ranges h0 /\ dirty h0 = true /\
  h_mem h0 VariedUpd = Some (VZ 1) /\ create_config a = Ok (h_cfg h0).
Proof.
  intros (KL & h0 & C & H). exists h0. destruct (created_inv cosd nodes a h0 KL C) as (I & B & EA & CC & FF).
  split; [exact C|]. split; [exact H|]. split; [exact I|]. split; [eapply hist_inv; eauto|]. split; [exact B|].
  split; [exact EA|]. split; [exact FF|]. split; [now apply coefdef0|].
  unfold create in C. destruct (create_config a) as [c| |] eqn:E; try discriminate C. injection C as <-.
  split; [apply ranges0; eapply created_good; eauto|]. split; [apply created_dirty|]. split; [reflexivity|exact CC].
Qed.

Lemma getter_same g h r h' : kind_of g = Getter -> exec g h = Ret r h' -> h' = h.
Proof. intros K E. pose proof (getter_pure cosd acosd g h K) as P. now rewrite E in P. Qed.

Lemma is_getter_of g : kind_of g = Getter -> is_getter g = true.
Proof. destruct g; intro K; try discriminate K; reflexivity. Qed.

Lemma get_set nodes a t h s v h' g r : reach nodes a t h -> sized h s -> exec s h = Ret v h' ->
  stored cosd acosd (h_cfg h) s g = Some r -> offered (h_cfg h) g = true ->
  index_ok (h_cfg h) (reported cosd acosd h') g -> exec g h' = Ret r h'.
Proof.
  intros R SZ E ST OF IX. destruct (reach_facts _ _ _ _ R) as (h0 & _ & _ & _ & I & _).
  assert (K : kind_of s = Setter) by (destruct s; try reflexivity; discriminate ST).
  assert (S1 : steps cosd acosd h s true h') by (exists v; exact E).
  pose proof (step_inv cosd acosd h s true h' I SZ S1) as I'.
  assert (EC : h_cfg h' = h_cfg h) by (apply (setter_cfg cosd acosd h s v h'); auto).
  apply (get_after_set cosd acosd h s v h' g r I SZ E ST OF). rewrite <- EC in IX |- *. now apply (reported_index cosd acosd).
Qed.

Lemma frame nodes a t h t' h' g r : reach nodes a t h -> hist h t' h' -> kind_of g = Getter -> g <> GetQx -> unbroken t' ->
  (forall x o ok, about g = Some x -> In (o, ok) t' -> changes o x = false) -> exec g h = Ret r h -> exec g h' = Ret r h'.
Proof.
  intros R H K NQ U C E. destruct (reach_facts _ _ _ _ R) as (h0 & _ & _ & _ & I & _).
  destruct (answered_in_range cosd acosd h g r h I K E) as [IX _].
  eapply hist_answer; eauto using is_getter_of.
Qed.

Lemma last_set nodes a t h s v h1 t' h' g r : reach nodes a t h -> sized h s -> exec s h = Ret v h1 -> hist h1 t' h' -> unbroken t' ->
  stored cosd acosd (h_cfg h) s g = Some r -> offered (h_cfg h) g = true ->
  index_ok (h_cfg h) (reported cosd acosd h1) g ->
  (forall x o ok, about g = Some x -> In (o, ok) t' -> changes o x = false) -> exec g h' = Ret r h'.
Proof.
  intros R SZ E H U ST OF IX C. pose proof (get_set _ _ _ _ _ _ _ _ _ R SZ E ST OF IX) as G.
  assert (R1 : reach nodes a ((s, true) :: t) h1).
  { destruct R as (KL & h0 & CR & H0). split; auto. exists h0. split; auto. econstructor; eauto. now exists v. }
  assert (K : kind_of g = Getter /\ g <> GetQx) by (destruct (stored_getter cosd acosd _ _ _ _ ST) as (? & ? & ?); auto).
  destruct K as [K NQ]. exact (frame _ _ _ _ _ _ _ _ R1 H K NQ U C G).
Qed.

Lemma in_ranges nodes a t h g r h' : reach nodes a t h -> kind_of g = Getter -> g <> GetQx -> exec g h = Ret r h' ->
  documented cosd acosd (h_cfg h) g r.
Proof.
  intros R K NQ E. destruct (reach_facts _ _ _ _ R) as (h0 & _ & H & I0 & I & _ & _ & _ & _ & RG & _).
  pose proof (getter_same _ _ _ _ K E) as ->. destruct (answered_in_range cosd acosd h g r h I K E) as [IX _].
  eapply answers_documented; eauto using is_getter_of. exact (hist_ranges cosd acosd h0 t h I0 RG H).
Qed.

Lemma normalised nodes a t h i n h1 d h2 : reach nodes a t h -> coef_clean t ->
  exec (GetNCoef i) h = Ret [VZ n] h1 -> 1 < n -> exec (GetCoef i 0 0) h = Ret [VD d] h2 ->
  dgt (dabs (dsub d_one d)) d_eps = false.
Proof.
  intros R CC E1 N E2. destruct (reach_facts _ _ _ _ R) as (h0 & CR & H & I0 & I & _ & _ & FF & _).
  pose proof (getter_same (GetNCoef i) _ _ _ eq_refl E1) as ->. pose proof (getter_same (GetCoef i 0 0) _ _ _ eq_refl E2) as ->.
  assert (N0 : normal h0).
  { intros j x _ _ Q. unfold create in CR. destruct (create_config a); try discriminate CR. injection CR as <-. discriminate Q. }
  pose proof (hist_normal cosd acosd h0 t h I0 N0 H CC) as NM.
  destruct (answered_in_range cosd acosd h (GetCoef i 0 0) _ _ I eq_refl E2) as [IX _]. cbn [index_ok] in IX. destruct IX as (IX & _ & _).
  assert (Q1 : GetNCoef i <> GetQx) by discriminate. assert (Q2 : GetCoef i 0 0 <> GetQx) by discriminate.
  pose proof (answer_accepts cosd acosd h (GetCoef i 0 0) _ I eq_refl Q2 (ret_safe cosd acosd _ _ _ _ I Q2 E2) E2) as [_ GR].
  pose proof (answer_accepts cosd acosd h (GetNCoef i) _ I eq_refl Q1 (ret_safe cosd acosd _ _ _ _ I Q1 E1) E1) as [GA _].
  pose proof (cfg_dims _ _ (k_cfg _ (i_core _ _ I))) as KC.
  apply (NM i d).
  - rewrite <- (de_nl _ _ KC). exact IX.
  - destruct (reported_ncl cosd acosd h i I IX) as [Q _]. rewrite <- (Q GA). unfold reported. now rewrite E1.
  - unfold gres in GR. cbn [gcfg gcells gpost app map] in GR. unfold cellv in GR. destruct (h_mem h (Coef0 i 0 0)); [|discriminate GR]. congruence.
Qed.

Lemma rejected nodes a t h o e h' : reach nodes a t h -> sized h o -> kind_of o = Setter -> atomic o = true ->
  exec o h = Fail e h' -> h' = h.
Proof. intros R. destruct (reach_facts _ _ _ _ R) as (h0 & _ & _ & _ & I & _). now apply rejected_same. Qed.

Lemma refused nodes a t h o : reach nodes a t h -> sized h o -> refused_at_once (h_cfg h) o -> exists e, exec o h = Fail e h.
Proof. intros R. destruct (reach_facts _ _ _ _ R) as (h0 & _ & _ & _ & I & _). now apply refused_same. Qed.

Lemma unset nodes a t h g x nco : reach nodes a t h -> no_solve t -> about g = Some x -> input x = true -> ~ maybe t x ->
  g <> GetQx -> index_ok (h_cfg h) nco g -> exists e, exec g h = Fail e h.
Proof.
  intros R. destruct (reach_facts _ _ _ _ R) as (h0 & _ & H & I0 & I & B & _ & FF & _). intros. eapply (unset_refused cosd acosd h0); eauto.
Qed.

Lemma set_index nodes a t h o : reach nodes a t h -> sized h o -> kind_of o = Setter -> ~ setter_index_ok (h_cfg h) o ->
  exists e, exec o h = Fail e h.
Proof.
  intros R SZ K N. destruct (reach_facts _ _ _ _ R) as (h0 & _ & _ & _ & I & _).
  destruct (atomic o) eqn:A.
  - destruct (exec o h) as [v h'|e h'|] eqn:E.
    + elim N. eapply setter_in_range; eauto.
    + exists e. now rewrite (rejected_same cosd acosd h o e h' I SZ K A E).
    + elim (setter_defined cosd acosd h o K I SZ E).
  - apply (refused_same cosd acosd h o I SZ). destruct o; try discriminate A; cbn [setter_index_ok refused_at_once] in *; try tauto.
Qed.

Lemma get_index nodes a t h g : reach nodes a t h -> coef_clean t -> kind_of g = Getter -> careful (h_cfg h) t g ->
  ~ index_ok (h_cfg h) (ncoef_max cosd acosd h) g -> exists e, exec g h = Fail e h.
Proof.
  intros R CC K CF N. destruct (reach_facts _ _ _ _ R) as (h0 & _ & H & I0 & I & B & _ & FF & _).
  assert (SZ : sized h g) by (destruct g; try discriminate K; exact Logic.I).
  pose proof (careful_defined cosd acosd h0 t h g I0 B FF H CC SZ CF) as D.
  pose proof (getter_pure cosd acosd g h K) as P.
  destruct (exec g h) as [r h'|e h'|] eqn:E; [|subst; eauto|congruence]. subst h'.
  elim N. destruct (answered_in_range cosd acosd h g r h I K E) as [IX _].
  assert (M : forall i, 0 <= i < c_n_layers (h_cfg h) -> ncl h i <= ncoef_max cosd acosd h i).
  { intros i Hi. pose proof (cfg_dims _ _ (k_cfg _ (i_core _ _ I))) as KC.
    assert (Hi' : 0 <= i < c_n_layers (h_alloc h)) by (rewrite <- (de_nl _ _ KC); lia).
    destruct (k_ncl _ (i_core _ _ I) i Hi') as (n & En & Hn).
    assert (V : ncl h i = n) by (unfold ncl; now rewrite En). unfold ncoef_max. pose proof (de_nc _ _ KC) as EN.
    destruct (exec (GetNCoef i) h) as [[|[m|m] [|]] h'|? ?|] eqn:Q; try lia.
    pose proof (getter_same (GetNCoef i) _ _ _ eq_refl Q) as ->.
    assert (NQ : GetNCoef i <> GetQx) by discriminate.
    pose proof (answer_accepts cosd acosd h (GetNCoef i) _ I eq_refl NQ (fun _ => Hi) Q) as [GA _].
    destruct (reported_ncl cosd acosd h i I Hi) as [QQ _]. specialize (QQ GA). unfold reported in QQ. rewrite Q in QQ. lia. }
  destruct g; auto; cbn [index_ok] in *; unfold within in *.
  - destruct IX as (A1 & A2 & A3). specialize (M i A1). repeat split; lia.
  - destruct IX as (A1 & A2 & A3 & A4). specialize (M i A1). repeat split; lia.
Qed.

Lemma defined nodes a t h o : reach nodes a t h -> coef_clean t -> sized h o -> careful (h_cfg h) t o -> exec o h <> Undef.
Proof.
  intros R CC SZ CF. destruct (reach_facts _ _ _ _ R) as (h0 & _ & H & I0 & _ & B & _ & FF & _).
  exact (careful_defined cosd acosd h0 t h o I0 B FF H CC SZ CF).
Qed.

Lemma getter_defined nodes a t h g : reach nodes a t h -> coef_clean t -> kind_of g = Getter -> careful (h_cfg h) t g -> exec g h <> Undef.
Proof. intros R CC K CF. apply (defined nodes a t h g R CC); auto. destruct g; try discriminate K; exact Logic.I. Qed.

Lemma req_eq nodes a t h h0 : create nodes a = Ok h0 -> reach nodes a t h -> required (h_cfg h) = required (h_cfg h0).
Proof.
  intros C R. destruct (reach_facts _ _ _ _ R) as (h1 & C1 & H & I0 & _). rewrite C1 in C. injection C as <-.
  eapply hist_required; eauto.
Qed.

Lemma missing nodes a t h o e h' k : reach nodes a t h -> kind_of o = Solve -> exec o h = Fail e h' -> missing_code e = Some k ->
  h' = h /\ exists l x r, required (h_cfg h) = l ++ x :: r /\ code x = k /\ ~ surely t x /\ forall y, In y l -> maybe t y.
Proof.
  intros R K E M. destruct (reach_facts _ _ _ _ R) as (h0 & C & H & I0 & I & B & _ & FF & _).
  rewrite (req_eq _ _ _ _ _ C R). exact (gate_reports cosd acosd h0 t h o e h' k I0 FF H K E M).
Qed.

Lemma sound nodes a t h o v h' : reach nodes a t h -> kind_of o = Solve -> runs o = true -> exec o h = Ret v h' ->
  (forall x, In x (required (h_cfg h)) -> maybe t x) /\
  (has_opt (h_cfg h) OPT_OUTPUT_AT_TAUS = true -> depths_pending t ->
     exists us ls, depths_reported cosd acosd h us ls /\ depths_good true us ls) /\
  (has_opt (h_cfg h) OPT_CALC_DERIVS = true -> In (UpdateVaried, true) t).
Proof.
  intros R K RN E. destruct (reach_facts _ _ _ _ R) as (h0 & C & H & I0 & I & B & _ & FF & _ & _ & D & V & _).
  rewrite (req_eq _ _ _ _ _ C R). destruct (gate_sound cosd acosd h0 t h o v h' I0 FF D H K RN E) as (A1 & A2 & A3).
  split; [exact A1|]. split; [exact A2|]. intro O. exact (varied_called cosd acosd h0 t h I0 V H O A3).
Qed.

(** The derivative bookkeeping was brought up to date: once done it is never undone. *)
Lemma varied_stays h0 t h : inv h0 -> hist h0 t h -> In (UpdateVaried, true) t -> h_mem h VariedUpd = Some (VZ 0).
Proof.
  intros I H. induction H as [|t h o ok h' H IH SZ ST]; [intros []|]. pose proof (hist_inv cosd acosd _ _ _ I H) as I1. intros [Q|Q].
  - injection Q as -> ->. destruct ST as (v & E). cbn [HandleModel.exec] in E.
    unfold done, update_varied_layers in E. rewrite bind_assoc in E.
    apply bind_inv in E as (? & ? & _ & E). rewrite bind_assoc in E. apply bind_inv in E as (? & ? & _ & E).
    rewrite bind_assoc in E. apply bind_inv in E as (? & hh & _ & E).
    apply bind_inv in E as (? & h2 & E1 & E2). unfold ret in E2. injection E2 as _ <-.
    unfold wrZ, wr in E1. destruct (acc _ _ _); [|discriminate E1]. injection E1 as _ <-. cbn [h_mem]. now rewrite upd_same.
  - specialize (IH Q). assert (T : o = UpdateVaried \/ tch o VariedUpd = false) by (destruct o; auto).
    destruct T as [->|T].
    + destruct ok.
      * destruct ST as (v & E). cbn [HandleModel.exec] in E.
        unfold done, update_varied_layers in E. rewrite bind_assoc in E.
        apply bind_inv in E as (? & ? & _ & E). rewrite bind_assoc in E. apply bind_inv in E as (? & ? & _ & E).
        rewrite bind_assoc in E. apply bind_inv in E as (? & hh & _ & E).
        apply bind_inv in E as (? & h2 & E1 & E2). unfold ret in E2. injection E2 as _ <-.
        unfold wrZ, wr in E1. destruct (acc _ _ _); [|discriminate E1]. injection E1 as _ <-. cbn [h_mem]. now rewrite upd_same.
      * rewrite (step_upd_fail cosd acosd h h' I1 ST). exact IH.
    + pose proof (only_exec cosd acosd o h) as OO. unfold HandleHist.steps in ST.
      destruct ok, ST as (v & E); rewrite E in OO; rewrite OO; auto.
Qed.

Lemma complete nodes a t h s oo n fx : reach nodes a t h -> coef_clean t -> request_ok (h_cfg h) s oo n ->
  (forall x, In x (required (h_cfg h)) -> surely t x) ->
  (has_opt (h_cfg h) OPT_OUTPUT_AT_TAUS = true -> exists us ls, depths_reported cosd acosd h us ls /\ depths_good false us ls) ->
  (has_opt (h_cfg h) OPT_CALC_DERIVS = true -> In (UpdateVaried, true) t) ->
  exists h', exec (Solution s oo n fx) h = if fx_ok fx then Ret [] h' else Fail EInt h'.
Proof.
  intros R CC RQ AS DG VU. destruct (reach_facts _ _ _ _ R) as (h0 & C & H & I0 & I & B & _ & FF & _).
  rewrite (req_eq _ _ _ _ _ C R) in AS. apply (gate_complete cosd acosd h0 t h); auto.
  intro O. apply (varied_stays h0 t h); auto.
Qed.

Lemma destroy nodes a t h : reach nodes a t h -> exists h', destroy_flags h = Ret tt h' /\
  (forall b, b <> BKFunc -> h_live h' b = false) /\
  (h_live h' BKFunc = true <-> iib h = false /\ 0 < c_n_kernels (h_cfg h)).
Proof.
  intros R. destruct (reach_facts _ _ _ _ R) as (h0 & _ & _ & _ & I & _). destruct (destroy_frees cosd h I) as (h' & E & L).
  exists h'. split; [exact E|]. split.
  - intros b Nb. rewrite L. destruct b; congruence.
  - rewrite L, andb_true_iff, negb_true_iff, Z.gtb_lt. tauto.
Qed.

Lemma released nodes a t h t' h' b : reach nodes a t h -> hist h t' h' -> h_live h b = false -> h_live h' b = false.
Proof.
  intros R H L. destruct (reach_facts _ _ _ _ R) as (h0 & _ & _ & _ & I & _).
  destruct (h_live h' b) eqn:E; auto. rewrite (hist_live cosd acosd h t' h' b I H E) in L. discriminate.
Qed.

Lemma always_ready nodes a t h o v h1 t' h2 o' e h3 : reach nodes a t h -> sized h o -> kind_of o = Solve ->
  runs o = true \/ o = UpdateVaried -> exec o h = Ret v h1 -> hist h1 t' h2 -> kind_of o' = Solve -> exec o' h2 = Fail e h3 ->
  missing_code e = None.
Proof.
  intros R SZ K RN E H K' E'. destruct (reach_facts _ _ _ _ R) as (h0 & _ & _ & _ & I & _).
  pose proof (accepted_ready cosd acosd h o v h1 I K RN E) as B.
  assert (I1 : inv h1) by (apply (step_inv cosd acosd h o true h1 I SZ); now exists v).
  pose proof (hist_inv cosd acosd _ _ _ I1 H) as I2.
  apply (ready_no_missing cosd acosd h2 o' e h3 I2); auto.
  apply (hist_ready cosd acosd h1 [] h1 t' h2 I1); auto. constructor.
Qed.

Lemma solve_keeps nodes a t h o ok h' g r : reach nodes a t h -> sized h o -> kind_of o = Solve -> steps cosd acosd h o ok h' ->
  kind_of g = Getter -> g <> GetQx -> exec g h = Ret r h -> exec g h' = Ret r h'.
Proof.
  intros R SZ K ST G NQ E. apply (frame nodes a t h [(o, ok)] h' g r R); auto.
  - econstructor; eauto. constructor.
  - intros fx [Q|[]]. injection Q as -> _. discriminate K.
  - intros x o' ok' _ [Q|[]]. injection Q as <- <-. destruct o; try discriminate K; reflexivity.
Qed.
End Facts.

(* ------------------------------------------------------------------------- *)
(** * A concrete handle                                                       *)

(** One more call on a history, computed. *)
Definition next cosd acosd (o : op) (h : handle) : handle :=
  match exec cosd acosd o h with Ret _ h' | Fail _ h' => h' | Undef => h end.
Definition accepted cosd acosd (o : op) (h : handle) : bool := match exec cosd acosd o h with Ret _ _ => true | _ => false end.
Definition undefined cosd acosd (o : op) (h : handle) : bool := match exec cosd acosd o h with Undef => true | _ => false end.
Definition ends cosd acosd (os : list op) (h : handle) : handle := fold_right (next cosd acosd) h os.
Fixpoint trace cosd acosd (os : list op) (h : handle) : list (op * bool) :=
  match os with [] => [] | o :: os' => (o, accepted cosd acosd o (ends cosd acosd os' h)) :: trace cosd acosd os' h end.
Fixpoint playable cosd acosd (os : list op) (h : handle) : Prop :=
  match os with
  | [] => True
  | o :: os' => playable cosd acosd os' h /\ sized (ends cosd acosd os' h) o /\ undefined cosd acosd o (ends cosd acosd os' h) = false
  end.

Lemma plays cosd acosd h0 os : playable cosd acosd os h0 -> hist cosd acosd h0 (trace cosd acosd os h0) (ends cosd acosd os h0).
Proof.
  induction os as [|o os IH]; intro P; [constructor|]. destruct P as (P & SZ & U). cbn [trace]. 
  apply hist_call with (h := ends cosd acosd os h0); auto.
  unfold ends. cbn [fold_right]. fold (ends cosd acosd os h0). unfold accepted, next, undefined, steps in *.
  destruct (exec cosd acosd o (ends cosd acosd os h0)); try discriminate U; eauto.
Qed.

Definition d_half : dbl := S754_finite false 4503599627370496 (-53).
Definition d_quarter : dbl := S754_finite false 4503599627370496 (-54).
Definition d_60 : dbl := S754_finite false 8444249301319680 (-47).
Definition d_two : dbl := S754_finite false 4503599627370496 (-51).
Definition d_m1 : dbl := S754_finite true 4503599627370496 (-52).
(** a table that is the cosine at the angles used below *)
Definition tcos (x : dbl) : dbl := if deq x d_60 then d_half else if deq x d_zero then d_one else d_quarter.
Definition tacos (x : dbl) : dbl := if deq x d_half then d_60 else d_zero.
Definition tnodes (i : Z) : dbl := if i =? 0 then d_quarter else S754_finite false 6755399441055744 (-53).

Definition two_args : create_args :=
  {| a_options := ors [OPT_OUTPUT_AT_TAUS; OPT_CALC_DERIVS; OPT_SOURCE_SOLAR];
     a_solvers := ors [SOLVER_EIG_BVP];
     a_max_coef := 3; a_n_quad := 2; a_n_stokes := 1; a_n_derivs := 1; a_n_layers := 2;
     a_n_theta_0s := 1; a_n_kernels := 1; a_n_kernel_quad := 16; a_kernels := [0%Z];
     a_n_out_levels := 2; a_n_out_thetas := 0 |}.
Definition two_cfg : config := match create_config two_args with Ok c => c | _ => match create_config ex_args with Ok c => c | _ =>
  with_derivs 0 0 {| c_options := 0; c_solvers := 0; c_n_coef := 0; c_n_coef2 := 0; c_n_four := 0; c_n_four2 := 0; c_n_elem := 0; c_n_quad := 0;
     c_n_stokes := 0; c_n_derivs := 0; c_n_layers := 0; c_n_theta_0s := 0; c_n_kernels := 0; c_n_kernel_quad := 0; c_kernels := [];
     c_n_ulevels := 0; c_n_umus := 0; c_n_out_thetas_2 := 0 |} end end.
Definition two_handle : handle := handle0 tnodes two_cfg.
Lemma two_created : kernels_long_enough two_args /\ create tnodes two_args = Ok two_handle.
Proof. split; [vm_compute; discriminate|]. unfold create, two_handle, two_cfg. destruct (create_config two_args) eqn:E; [reflexivity| |]; vm_compute in E; discriminate E. Qed.

Lemma two_reach os : playable tcos tacos os two_handle -> reach tcos tacos tnodes two_args (trace tcos tacos os two_handle) (ends tcos tacos os two_handle).
Proof. intro P. destruct two_created as [K C]. split; [exact K|]. exists two_handle. split; [exact C|now apply plays]. Qed.

Definition phase : list (list dbl) := [[d_one; d_half; d_quarter]].
Definition all_set : list op := rev
  [SetFourierTol d_zero; SetOutTaus [d_zero; d_half]; SetFIsoTop d_zero; SetFIsoBot d_zero; SetF0 d_one; SetTheta0 d_60; SetPhi0 d_zero;
   SetCoefn None [phase; phase]; SetOmegan [d_half; d_quarter]; SetLtau1 0 d_half; SetLtau1 1 d_quarter; SetKAmp 0 d_half].

Ltac indices c := let i := fresh "i" in let Hi := fresh "Hi" in intros i Hi;
  match type of Hi with _ <= _ < ?n =>
    let v := eval vm_compute in n in let E := fresh in assert (E : n = v) by (vm_compute; reflexivity); rewrite E in Hi; clear E end;
  first [ exfalso; lia
        | let E := fresh in assert (E : i = 0) by lia; subst i
        | let E := fresh in assert (E : i = 0 \/ i = 1) by lia; destruct E; subst i ].
Ltac szd := cbn [sized]; unfold wide;
  repeat first [ match goal with
                 | |- _ /\ _ => split
                 | |- _ <= _ => vm_compute; discriminate
                 | |- True => exact I
                 | |- _ = _ => vm_compute; reflexivity
                 end | progress (indices tt) ].
Ltac play := cbn [playable app rev]; repeat match goal with |- playable _ _ _ _ /\ _ => split | |- sized _ _ /\ _ => split end; szd.

Lemma all_set_plays : playable tcos tacos all_set two_handle.
Proof. unfold all_set. play. Qed.
Definition full_handle : handle := ends tcos tacos all_set two_handle.
Definition full_trace : list (op * bool) := trace tcos tacos all_set two_handle.
Lemma full_reach : reach tcos tacos tnodes two_args full_trace full_handle.
Proof. exact (two_reach _ all_set_plays). Qed.
(** the derivative bookkeeping, then a solution *)
Definition fx_good : solve_fx := {| fx_ok := true; fx_dep := fun _ => 0%N; fx_lev := fun _ => 0 |}.
Definition solve_it : op := Solution SOLVER_EIG_BVP OUT_RADIANCE 1 fx_good.
Definition ready_ops : list op := UpdateVaried :: all_set.
Lemma ready_plays : playable tcos tacos ready_ops two_handle.
Proof. unfold ready_ops. cbn [playable]. split; [exact all_set_plays|]. split; szd. Qed.
Definition ready_handle : handle := ends tcos tacos ready_ops two_handle.
Definition ready_trace : list (op * bool) := trace tcos tacos ready_ops two_handle.
Lemma ready_reach : reach tcos tacos tnodes two_args ready_trace ready_handle.
Proof. exact (two_reach _ ready_plays). Qed.
Definition answer (o : op) (h : handle) : option (list val) := match exec tcos tacos o h with Ret r _ => Some r | _ => None end.
Lemma answered (o : op) (h : handle) r : kind_of o = Getter -> answer o h = Some r -> exec tcos tacos o h = Ret r h.
Proof.
  intros K A. unfold answer in A. destruct (exec tcos tacos o h) as [r' h'| |] eqn:E; try discriminate A. injection A as ->.
  now rewrite (getter_same tcos tacos o h r h' K E).
Qed.
Lemma next_ok o h : accepted tcos tacos o h = true -> exists v, exec tcos tacos o h = Ret v (next tcos tacos o h).
Proof. unfold accepted, next. destruct (exec tcos tacos o h); try discriminate. eauto. Qed.
Lemma next_fail o h : accepted tcos tacos o h = false -> undefined tcos tacos o h = false -> exists e, exec tcos tacos o h = Fail e (next tcos tacos o h).
Proof. unfold accepted, next, undefined. destruct (exec tcos tacos o h); try discriminate. eauto. Qed.
Lemma is_undef o h : undefined tcos tacos o h = true -> exec tcos tacos o h = Undef.
Proof. unfold undefined. destruct (exec tcos tacos o h); try discriminate. auto. Qed.

(* ------------------------------------------------------------------------- *)
(** * C06                                                                     *)

(** What an accepted setter stored is what its getter answers. *)
Theorem C06_get_after_set : forall cosd acosd nodes a t h s v h' g r,
  reach cosd acosd nodes a t h -> sized h s -> exec cosd acosd s h = Ret v h' ->
  stored cosd acosd (h_cfg h) s g = Some r -> offered (h_cfg h) g = true ->
  index_ok (h_cfg h) (reported cosd acosd h') g ->
  exec cosd acosd g h' = Ret r h'.
Proof. exact get_set. Qed.
Print Assumptions C06_get_after_set.

(** No other call changes an answer: setters of other inputs, accepted or not, getters,
    solutions, failed solutions, clearing saved results.  The exception is a failed
    xrtm_solution_2 (C27). *)
Theorem C06_other_calls_keep_answers : forall cosd acosd nodes a t h t' h' g r,
  reach cosd acosd nodes a t h -> hist cosd acosd h t' h' -> kind_of g = Getter -> g <> GetQx ->
  unbroken t' -> (forall x o ok, about g = Some x -> In (o, ok) t' -> changes o x = false) ->
  exec cosd acosd g h = Ret r h -> exec cosd acosd g h' = Ret r h'.
Proof. exact frame. Qed.
Print Assumptions C06_other_calls_keep_answers.

(** Together: the last accepted setter of an input decides the answer. *)
Theorem C06_last_setter_decides : forall cosd acosd nodes a t h s v h1 t' h' g r,
  reach cosd acosd nodes a t h -> sized h s -> exec cosd acosd s h = Ret v h1 ->
  hist cosd acosd h1 t' h' -> unbroken t' ->
  stored cosd acosd (h_cfg h) s g = Some r -> offered (h_cfg h) g = true ->
  index_ok (h_cfg h) (reported cosd acosd h1) g ->
  (forall x o ok, about g = Some x -> In (o, ok) t' -> changes o x = false) ->
  exec cosd acosd g h' = Ret r h'.
Proof. exact last_set. Qed.
Print Assumptions C06_last_setter_decides.

Example C06_case : exists v, let s := SetLtau1 1 d_two in let h' := next tcos tacos s full_handle in
  sized full_handle s /\ exec tcos tacos s full_handle = Ret v h' /\
  stored tcos tacos (h_cfg full_handle) s (GetLtau 1) = Some [VD d_two] /\
  offered (h_cfg full_handle) (GetLtau 1) = true /\ index_ok (h_cfg full_handle) (reported tcos tacos h') (GetLtau 1) /\
  answer (GetLtau 1) full_handle = Some [VD d_quarter] /\ answer (GetLtau 1) h' = Some [VD d_two] /\
  answer GetTheta0 h' = Some [VD d_60] /\ answer (GetLtau 0) h' = Some [VD d_half].
Proof.
  destruct (next_ok (SetLtau1 1 d_two) full_handle) as (v & E); [vm_compute; reflexivity|].
  exists v. cbv zeta. split; [exact I|]. split; [exact E|]. vm_compute. repeat split; try reflexivity; discriminate.
Qed.

(* ------------------------------------------------------------------------- *)
(** * C07                                                                     *)

Theorem C07_answers_in_documented_range : forall cosd acosd nodes a t h g r h',
  reach cosd acosd nodes a t h -> kind_of g = Getter -> g <> GetQx -> exec cosd acosd g h = Ret r h' ->
  documented cosd acosd (h_cfg h) g r.
Proof. exact in_ranges. Qed.
Print Assumptions C07_answers_in_documented_range.

(** The first phase function coefficient of a layer with more than one is 1 up to rounding,
    as long as no call setting coefficients failed (C08 has the counterexample). *)
Theorem C07_phase_functions_normalised : forall cosd acosd nodes a t h i n h1 d h2,
  reach cosd acosd nodes a t h -> coef_clean t ->
  exec cosd acosd (GetNCoef i) h = Ret [VZ n] h1 -> 1 < n -> exec cosd acosd (GetCoef i 0 0) h = Ret [VD d] h2 ->
  dgt (dabs (dsub d_one d)) d_eps = false.
Proof. exact normalised. Qed.
Print Assumptions C07_phase_functions_normalised.

(** A NaN is accepted where a positive number is documented. *)
Theorem C07_nan_accepted_refuted : exists nodes a t h h' g r,
  reach tcos tacos nodes a t h /\ g = GetLtau 0 /\ exec tcos tacos g h = Ret r h' /\ ~ one_double r (fun d => dlt d_zero d = true).
Proof.
  pose (os := [SetLtau1 0 S754_nan]).
  assert (P : playable tcos tacos os two_handle) by (unfold os; play).
  exists tnodes, two_args, (trace tcos tacos os two_handle), (ends tcos tacos os two_handle), (ends tcos tacos os two_handle), (GetLtau 0), [VD S754_nan].
  split; [exact (two_reach _ P)|]. split; [reflexivity|]. split; [apply answered; [reflexivity|vm_compute; reflexivity]|].
  intros (d & E & L). injection E as <-. discriminate L.
Qed.
Print Assumptions C07_nan_accepted_refuted.

Example C07_case : exists r, exec tcos tacos (GetOmega 0) full_handle = Ret r full_handle /\ r = [VD d_half] /\
  coef_clean full_trace /\ answer (GetNCoef 1) full_handle = Some [VZ 3] /\ answer (GetCoef 1 0 0) full_handle = Some [VD d_one].
Proof.
  exists [VD d_half]. split; [apply answered; [reflexivity|vm_compute; reflexivity]|]. split; [reflexivity|]. split; [|vm_compute; auto].
  intros o C Q. vm_compute in Q. repeat destruct Q as [Q|Q]; try discriminate Q; try easy; injection Q as <-; discriminate C.
Qed.

(* ------------------------------------------------------------------------- *)
(** * C08                                                                     *)

Theorem C08_rejected_setter_changes_nothing : forall cosd acosd nodes a t h o e h',
  reach cosd acosd nodes a t h -> sized h o -> kind_of o = Setter -> atomic o = true ->
  exec cosd acosd o h = Fail e h' -> h' = h.
Proof. exact rejected. Qed.
Print Assumptions C08_rejected_setter_changes_nothing.

(** The five other setters change nothing either when what they check first fails. *)
Theorem C08_refused_at_once_changes_nothing : forall cosd acosd nodes a t h o,
  reach cosd acosd nodes a t h -> sized h o -> refused_at_once (h_cfg h) o ->
  exists e, exec cosd acosd o h = Fail e h.
Proof. exact refused. Qed.
Print Assumptions C08_refused_at_once_changes_nothing.

(** ... but not always: a rejected xrtm_set_out_taus, xrtm_set_coef_n or xrtm_set_theta_0 can change what a
    getter answers. *)
Definition changes_answer (o g : op) : Prop := exists nodes a t h e h' r r',
  reach tcos tacos nodes a t h /\ sized h o /\ exec tcos tacos o h = Fail e h' /\
  exec tcos tacos g h = Ret r h /\ exec tcos tacos g h' = Ret r' h' /\ r <> r'.
Theorem C08_out_taus_partial_write_refuted : exists o, o = SetOutTaus [d_half; d_m1] /\ changes_answer o GetOutTaus.
Proof.
  eexists. split; [reflexivity|]. destruct (next_fail (SetOutTaus [d_half; d_m1]) full_handle ltac:(vm_compute; reflexivity) ltac:(vm_compute; reflexivity)) as (e & E).
  exists tnodes, two_args, full_trace, full_handle, e, (next tcos tacos (SetOutTaus [d_half; d_m1]) full_handle), [VD d_zero; VD d_half], [VD d_half; VD d_half].
  split; [exact full_reach|]. split; [szd|]. split; [exact E|]. split; [apply answered; [reflexivity|vm_compute; reflexivity]|].
  split; [apply answered; [reflexivity|vm_compute; reflexivity]|discriminate].
Qed.
Print Assumptions C08_out_taus_partial_write_refuted.

Definition bad_phases : list (list (list dbl)) := [[[d_one; d_quarter; d_quarter]]; [[d_two; d_half; d_quarter]]].
Theorem C08_coef_partial_write_refuted : exists o, o = SetCoefn None bad_phases /\ changes_answer o (GetCoef 0 0 1).
Proof.
  eexists. split; [reflexivity|]. destruct (next_fail (SetCoefn None bad_phases) full_handle ltac:(vm_compute; reflexivity) ltac:(vm_compute; reflexivity)) as (e & E).
  exists tnodes, two_args, full_trace, full_handle, e, (next tcos tacos (SetCoefn None bad_phases) full_handle), [VD d_half], [VD d_quarter].
  split; [exact full_reach|]. split; [szd|]. split; [exact E|]. split; [apply answered; [reflexivity|vm_compute; reflexivity]|].
  split; [apply answered; [reflexivity|vm_compute; reflexivity]|discriminate].
Qed.
Print Assumptions C08_coef_partial_write_refuted.

(** A handle with two output angles; both at 60 degrees, where the sun then is put. *)
Definition ang_args : create_args :=
  {| a_options := ors [OPT_OUTPUT_AT_LEVELS; OPT_SOURCE_SOLAR; OPT_SFI];
     a_solvers := ors [SOLVER_EIG_BVP];
     a_max_coef := 3; a_n_quad := 2; a_n_stokes := 1; a_n_derivs := 0; a_n_layers := 2;
     a_n_theta_0s := 1; a_n_kernels := 0; a_n_kernel_quad := 16; a_kernels := [];
     a_n_out_levels := 2; a_n_out_thetas := 2 |}.
Definition ang_handle : handle := match create tnodes ang_args with Ok h => h | _ => two_handle end.
Lemma ang_reach os : playable tcos tacos os ang_handle -> reach tcos tacos tnodes ang_args (trace tcos tacos os ang_handle) (ends tcos tacos os ang_handle).
Proof.
  intro P. split; [vm_compute; discriminate|]. exists ang_handle. split; [|now apply plays].
  unfold ang_handle, create. destruct (create_config ang_args) eqn:E; [reflexivity| |]; vm_compute in E; discriminate E.
Qed.

Definition ang_ops := [SetTheta0 d_zero; SetOutThetas [d_60; d_60]].
Theorem C08_theta_0_partial_write_refuted : exists o, o = SetTheta0 d_60 /\ changes_answer o GetTheta0.
Proof.
  eexists. split; [reflexivity|]. assert (P : playable tcos tacos ang_ops ang_handle) by (unfold ang_ops; play).
  pose (h := ends tcos tacos ang_ops ang_handle).
  destruct (next_fail (SetTheta0 d_60) h ltac:(vm_compute; reflexivity) ltac:(vm_compute; reflexivity)) as (e & E).
  exists tnodes, ang_args, (trace tcos tacos ang_ops ang_handle), h, e, (next tcos tacos (SetTheta0 d_60) h), [VD d_zero], [VD d_60].
  split; [exact (ang_reach _ P)|]. split; [szd|]. split; [exact E|]. split; [apply answered; [reflexivity|vm_compute; reflexivity]|].
  split; [apply answered; [reflexivity|vm_compute; reflexivity]|discriminate].
Qed.
Print Assumptions C08_theta_0_partial_write_refuted.

Definition ang_ops2 := [SetTheta0 d_60; SetOutThetas [d_zero; d_zero]].
Theorem C08_out_thetas_partial_write_refuted : exists o, o = SetOutThetas [d_60; d_60] /\ changes_answer o GetOutThetas.
Proof.
  eexists. split; [reflexivity|]. assert (P : playable tcos tacos ang_ops2 ang_handle) by (unfold ang_ops2; play).
  pose (h := ends tcos tacos ang_ops2 ang_handle).
  destruct (next_fail (SetOutThetas [d_60; d_60]) h ltac:(vm_compute; reflexivity) ltac:(vm_compute; reflexivity)) as (e & E).
  exists tnodes, ang_args, (trace tcos tacos ang_ops2 ang_handle), h, e, (next tcos tacos (SetOutThetas [d_60; d_60]) h), [VD d_zero; VD d_zero], [VD d_60; VD d_60].
  split; [exact (ang_reach _ P)|]. split; [szd|]. split; [exact E|]. split; [apply answered; [reflexivity|vm_compute; reflexivity]|].
  split; [apply answered; [reflexivity|vm_compute; reflexivity]|discriminate].
Qed.
Print Assumptions C08_out_thetas_partial_write_refuted.

Example C08_case : exists e, exec tcos tacos (SetOmega1 0 d_two) full_handle = Fail e (next tcos tacos (SetOmega1 0 d_two) full_handle)
  /\ sized full_handle (SetOmega1 0 d_two) /\ kind_of (SetOmega1 0 d_two) = Setter /\ atomic (SetOmega1 0 d_two) = true.
Proof. destruct (next_fail (SetOmega1 0 d_two) full_handle ltac:(vm_compute; reflexivity) ltac:(vm_compute; reflexivity)) as (e & E). exists e. split; [exact E|]. split; [exact I|]. split; reflexivity. Qed.

(* ------------------------------------------------------------------------- *)
(** * C09                                                                     *)

(** Before the first solution, a getter of an input that no call can have set is refused
    ([maybe]: an accepted setter of it, or a failed xrtm_set_out_thetas / xrtm_set_coef_n). *)
Theorem C09_unset_input_refused : forall cosd acosd nodes a t h g x nco,
  reach cosd acosd nodes a t h -> no_solve t -> about g = Some x -> input x = true -> ~ maybe t x ->
  g <> GetQx -> index_ok (h_cfg h) nco g -> exists e, exec cosd acosd g h = Fail e h.
Proof. exact unset. Qed.
Print Assumptions C09_unset_input_refused.

(** A getter whose indices are in range never answers an uninitialised value, as long as no
    call setting coefficients failed; xrtm_get_lambda only until the first solution unless the
    wavelength was set. *)
Theorem C09_no_uninitialised_answer : forall cosd acosd nodes a t h g,
  reach cosd acosd nodes a t h -> coef_clean t -> kind_of g = Getter -> careful (h_cfg h) t g ->
  exec cosd acosd g h <> Undef.
Proof. exact getter_defined. Qed.
Print Assumptions C09_no_uninitialised_answer.

(** The two exceptions.  A failed call that sets more coefficients than before: *)
Theorem C09_failed_coef_uninitialised_refuted : exists nodes a t h,
  reach tcos tacos nodes a t h /\ careful (h_cfg h) t (GetCoef 0 0 1) /\
  exec tcos tacos (GetNCoef 0) h = Ret [VZ 3] h /\ exec tcos tacos (GetCoef 0 0 1) h = Undef.
Proof.
  pose (os := [SetCoef1 0 3 [[d_two; d_half; d_half]]; SetCoef1 0 1 [[d_one]]]).
  assert (P : playable tcos tacos os two_handle) by (unfold os; play).
  exists tnodes, two_args, (trace tcos tacos os two_handle), (ends tcos tacos os two_handle). split; [exact (two_reach _ P)|].
  split; [vm_compute; split; [discriminate|reflexivity]|].
  split; [apply answered; [reflexivity|vm_compute; reflexivity]|apply is_undef; vm_compute; reflexivity].
Qed.
Print Assumptions C09_failed_coef_uninitialised_refuted.

(** The wavelength, which no solution requires: *)
Definition th_args : create_args :=
  {| a_options := ors [OPT_OUTPUT_AT_LEVELS; OPT_SOURCE_THERMAL];
     a_solvers := ors [SOLVER_EIG_BVP];
     a_max_coef := 3; a_n_quad := 2; a_n_stokes := 1; a_n_derivs := 0; a_n_layers := 1;
     a_n_theta_0s := 1; a_n_kernels := 0; a_n_kernel_quad := 16; a_kernels := [];
     a_n_out_levels := 2; a_n_out_thetas := 0 |}.
Definition th_handle : handle := match create tnodes th_args with Ok h => h | _ => two_handle end.
Lemma th_reach os : playable tcos tacos os th_handle -> reach tcos tacos tnodes th_args (trace tcos tacos os th_handle) (ends tcos tacos os th_handle).
Proof.
  intro P. split; [vm_compute; discriminate|]. exists th_handle. split; [|now apply plays].
  unfold th_handle, create. destruct (create_config th_args) eqn:E; [reflexivity| |]; vm_compute in E; discriminate E.
Qed.
Definition th_ops : list op := rev
  [SetFourierTol d_zero; SetOutLevels [0; 1]; SetFIsoTop d_zero; SetFIsoBot d_zero; SetLevelsB [d_one; d_two]; SetSurfaceB d_one;
   SetCoef1 0 3 phase; SetOmega1 0 d_half; SetLtau1 0 d_half; Solution SOLVER_EIG_BVP OUT_RADIANCE 1 fx_good].
Theorem C09_lambda_uninitialised_refuted : exists nodes a t h,
  reach tcos tacos nodes a t h /\ (exists o, In (o, true) t /\ runs o = true) /\ exec tcos tacos GetLambda h = Undef.
Proof.
  assert (P : playable tcos tacos th_ops th_handle) by (unfold th_ops; play).
  exists tnodes, th_args, (trace tcos tacos th_ops th_handle), (ends tcos tacos th_ops th_handle). split; [exact (th_reach _ P)|].
  split; [|apply is_undef; vm_compute; reflexivity].
  exists (Solution SOLVER_EIG_BVP OUT_RADIANCE 1 fx_good). split; [|reflexivity].
  left. apply f_equal. vm_compute. reflexivity.
Qed.
Print Assumptions C09_lambda_uninitialised_refuted.

Example C09_case : reach tcos tacos tnodes two_args [] two_handle /\ no_solve [] /\ about (GetOmega 1) = Some (IOmega 1) /\
  ~ maybe [] (IOmega 1) /\ index_ok (h_cfg two_handle) (fun _ => 0) (GetOmega 1).
Proof.
  split; [exact (two_reach [] I)|]. split; [intros o ok []|]. split; [reflexivity|]. split; [intros (o & ok & [] & _)|].
  vm_compute. split; [discriminate|reflexivity].
Qed.

(* ------------------------------------------------------------------------- *)
(** * C10                                                                     *)

Theorem C10_setter_index_refused : forall cosd acosd nodes a t h o,
  reach cosd acosd nodes a t h -> sized h o -> kind_of o = Setter -> ~ setter_index_ok (h_cfg h) o ->
  exists e, exec cosd acosd o h = Fail e h.
Proof. exact set_index. Qed.
Print Assumptions C10_setter_index_refused.

(** [careful] excludes exactly the getters below; [exec] is never [Undef], so no read or
    write goes outside an array. *)
Theorem C10_getter_index_refused : forall cosd acosd nodes a t h g,
  reach cosd acosd nodes a t h -> coef_clean t -> kind_of g = Getter -> careful (h_cfg h) t g ->
  ~ index_ok (h_cfg h) (ncoef_max cosd acosd h) g -> exists e, exec cosd acosd g h = Fail e h.
Proof. exact get_index. Qed.
Print Assumptions C10_getter_index_refused.

(** Every call made with array arguments of the documented sizes stays inside the arrays. *)
Theorem C10_calls_stay_in_bounds : forall cosd acosd nodes a t h o,
  reach cosd acosd nodes a t h -> coef_clean t -> sized h o -> careful (h_cfg h) t o ->
  exec cosd acosd o h <> Undef.
Proof. exact defined. Qed.
Print Assumptions C10_calls_stay_in_bounds.

(** The getters that look at a per-layer or per-kernel set flag before they check the index,
    for every index out of range, while the flags are in use. *)
Theorem C10_unchecked_getters_refuted : forall g,
  In g [GetNCoef (-1); GetCoef 2 0 0; GetOmega 2; GetLtau (-1); GetKAmp 1; GetKPar (-1) 0; GetKernel (-1)] ->
  reach tcos tacos tnodes two_args [] two_handle /\ exec tcos tacos g two_handle = Undef.
Proof.
  intros g G. split; [exact (two_reach [] I)|]. apply is_undef.
  repeat (destruct G as [<-|G]; [vm_compute; reflexivity|]). destruct G.
Qed.
Print Assumptions C10_unchecked_getters_refuted.

Example C10_case : ~ setter_index_ok (h_cfg full_handle) (SetLtau1 2 d_one) /\
  ~ index_ok (h_cfg full_handle) (ncoef_max tcos tacos full_handle) (GetCoef 1 0 3) /\ careful (h_cfg full_handle) full_trace (GetCoef 1 0 3).
Proof.
  split; [|split].
  - cbn [setter_index_ok]. unfold within. replace (c_n_layers (h_cfg full_handle)) with 2 by (vm_compute; reflexivity). lia.
  - cbn [index_ok]. unfold within. replace (ncoef_max tcos tacos full_handle 1) with 3 by (vm_compute; reflexivity). lia.
  - cbn [careful]. unfold within. replace (c_n_layers (h_cfg full_handle)) with 2 by (vm_compute; reflexivity). lia.
Qed.

(* ------------------------------------------------------------------------- *)
(** * C11                                                                     *)

(** An input reported missing is one no accepted call set, and the first such in the
    documented order; the refused call changes nothing. *)
Theorem C11_reports_first_missing : forall cosd acosd nodes a t h o e h' k,
  reach cosd acosd nodes a t h -> kind_of o = Solve -> exec cosd acosd o h = Fail e h' -> missing_code e = Some k ->
  h' = h /\ exists l x r, required (h_cfg h) = l ++ x :: r /\ code x = k /\ ~ surely t x /\ forall y, In y l -> maybe t y.
Proof. exact missing. Qed.
Print Assumptions C11_reports_first_missing.

(** An accepted solution had every required input, acceptable depths, and the derivative
    bookkeeping. *)
Theorem C11_accepted_means_specified : forall cosd acosd nodes a t h o v h',
  reach cosd acosd nodes a t h -> kind_of o = Solve -> runs o = true -> exec cosd acosd o h = Ret v h' ->
  (forall x, In x (required (h_cfg h)) -> maybe t x) /\
  (has_opt (h_cfg h) OPT_OUTPUT_AT_TAUS = true -> depths_pending t ->
     exists us ls, depths_reported cosd acosd h us ls /\ depths_good true us ls) /\
  (has_opt (h_cfg h) OPT_CALC_DERIVS = true -> In (UpdateVaried, true) t).
Proof. exact sound. Qed.
Print Assumptions C11_accepted_means_specified.

(** Conversely the gate lets a fully specified request through to the solver. *)
Theorem C11_specified_means_accepted : forall cosd acosd nodes a t h s oo n fx,
  reach cosd acosd nodes a t h -> coef_clean t -> request_ok (h_cfg h) s oo n ->
  (forall x, In x (required (h_cfg h)) -> surely t x) ->
  (has_opt (h_cfg h) OPT_OUTPUT_AT_TAUS = true ->
     exists us ls, depths_reported cosd acosd h us ls /\ depths_good false us ls) ->
  (has_opt (h_cfg h) OPT_CALC_DERIVS = true -> In (UpdateVaried, true) t) ->
  exists h', exec cosd acosd (Solution s oo n fx) h = if fx_ok fx then Ret [] h' else Fail EInt h'.
Proof. exact complete. Qed.
Print Assumptions C11_specified_means_accepted.

(** xrtm_solution_2 has no gate. *)
Definition rev_args : create_args :=
  {| a_options := ors [OPT_OUTPUT_AT_LEVELS; OPT_SOURCE_SOLAR; OPT_CALC_DERIVS; OPT_REVERSE_DERIVS];
     a_solvers := ors [SOLVER_TWO_STREAM];
     a_max_coef := 3; a_n_quad := 1; a_n_stokes := 1; a_n_derivs := 1; a_n_layers := 1;
     a_n_theta_0s := 1; a_n_kernels := 0; a_n_kernel_quad := 16; a_kernels := [];
     a_n_out_levels := 2; a_n_out_thetas := 0 |}.
Definition rev_handle : handle := match create tnodes rev_args with Ok h => h | _ => two_handle end.
Theorem C11_solution_2_ungated_refuted :
  reach tcos tacos tnodes rev_args [] rev_handle /\ exec tcos tacos (Solution2 fx_good) rev_handle = Undef.
Proof.
  split; [|apply is_undef; vm_compute; reflexivity]. split; [vm_compute; discriminate|]. exists rev_handle. split; [|constructor].
  unfold rev_handle, create. destruct (create_config rev_args) eqn:E; [reflexivity| |]; vm_compute in E; discriminate E.
Qed.
Print Assumptions C11_solution_2_ungated_refuted.

Definition isome {A} (x : option A) : bool := match x with Some _ => true | None => false end.
Example C11_case_missing : forall o, In o [Solution SOLVER_EIG_BVP OUT_RADIANCE 1 fx_good] ->
  exists e, exec tcos tacos o (ends tcos tacos [SetFourierTol d_zero] two_handle) = Fail e (ends tcos tacos [SetFourierTol d_zero] two_handle)
    /\ missing_code e = Some (code IOutTaus).
Proof.
  intros o [<-|[]]. pose (h := ends tcos tacos [SetFourierTol d_zero] two_handle). fold h.
  assert (P : playable tcos tacos [SetFourierTol d_zero] two_handle) by play.
  assert (C : match exec tcos tacos (Solution SOLVER_EIG_BVP OUT_RADIANCE 1 fx_good) h with Fail (EMissingM1 k) _ => k | _ => 0 end = 9) by (vm_compute; reflexivity).
  destruct (exec tcos tacos (Solution SOLVER_EIG_BVP OUT_RADIANCE 1 fx_good) h) as [| e h'|] eqn:E; try discriminate C.
  destruct e; try discriminate C. subst. exists (EMissingM1 9). split; [|reflexivity].
  destruct (missing tcos tacos tnodes two_args _ h (Solution SOLVER_EIG_BVP OUT_RADIANCE 1 fx_good) (EMissingM1 9) h' 9 (two_reach _ P) eq_refl E eq_refl) as [-> _]. reflexivity.
Qed.
Lemma ready_trace_eq : ready_trace = map (fun o => (o, true)) ready_ops.
Proof. vm_compute. reflexivity. Qed.
Example C11_case_accepted : coef_clean ready_trace /\ request_ok (h_cfg ready_handle) SOLVER_EIG_BVP OUT_RADIANCE 1 /\
  (forall x, In x (required (h_cfg ready_handle)) -> surely ready_trace x) /\
  (exists us ls, depths_reported tcos tacos ready_handle us ls /\ depths_good false us ls) /\
  In (UpdateVaried, true) ready_trace /\ accepted tcos tacos solve_it ready_handle = true.
Proof.
  rewrite ready_trace_eq. split; [|split; [|split; [|split; [|split]]]].
  - intros o C Q. apply in_map_iff in Q as (o' & Q & _). discriminate Q.
  - split; [exists 2%N; vm_compute; auto|]. split; [exists 2%N; vm_compute; auto|]. split; [exists 0%N; vm_compute; auto|].
    split; [lia|]. intros (k & Q1 & Q2). exfalso. change OUT_RADIANCE with (2 ^ 0)%N in Q1. rewrite N.pow2_bits_eqb in Q1. apply N.eqb_eq in Q1 as <-. discriminate Q2.
  - intros x Hx. replace (required (h_cfg ready_handle)) with
      [IFourierTol; IOutTaus; IFIsoTop; IFIsoBot; IF0; ITheta0; IPhi0; ICoef 0; IOmega 0; ILtau 0; ICoef 1; IOmega 1; ILtau 1; IKAmp 0] in Hx by (vm_compute; reflexivity).
    assert (S : existsb (fun o => changes o x) ready_ops = true) by (repeat (destruct Hx as [<-|Hx]; [vm_compute; reflexivity|]); destruct Hx).
    apply existsb_exists in S as (o & Ho & C). exists o. split; [|exact C]. now apply (in_map (fun o => (o, true))).
  - exists [d_zero; d_half], [d_half; d_quarter]. split.
    + split; [apply answered; [reflexivity|vm_compute; reflexivity]|]. split; [vm_compute; reflexivity|].
      unfold within. replace (c_n_layers (h_cfg ready_handle)) with 2 by (vm_compute; reflexivity). intros i Hi.
      assert (Q : i = 0 \/ i = 1) by lia. destruct Q; subst i; (apply answered; [reflexivity|vm_compute; reflexivity]).
    + unfold depths_good. split; [|split].
      * intros u Q. injection Q as <-. left. reflexivity.
      * intros u [<-|[<-|[]]]; left; vm_compute; reflexivity.
      * intros [|[|i]] u v Q1 Q2; cbn in Q1, Q2; [|discriminate Q2|destruct i; discriminate Q2]. injection Q1 as <-. injection Q2 as <-. left. vm_compute. reflexivity.
  - now left.
  - vm_compute. reflexivity.
Qed.

(* ------------------------------------------------------------------------- *)
(** * C12                                                                     *)

(** Flags are read and written, and arrays freed, only while they are allocated (a use after
    free or a double free is [Undef]; see also C10_calls_stay_in_bounds). *)
Theorem C12_no_use_after_free : forall cosd acosd nodes a t h o,
  reach cosd acosd nodes a t h -> coef_clean t -> sized h o -> careful (h_cfg h) t o ->
  exec cosd acosd o h <> Undef.
Proof. exact defined. Qed.
Print Assumptions C12_no_use_after_free.

(** Freed arrays stay freed. *)
Theorem C12_freed_once : forall cosd acosd nodes a t h t' h' b,
  reach cosd acosd nodes a t h -> hist cosd acosd h t' h' -> h_live h b = false -> h_live h' b = false.
Proof. exact released. Qed.
Print Assumptions C12_freed_once.

(** Destroying a handle frees what is left, and frees nothing twice; only the array of
    flags for kernel functions is left, exactly when the handle has become ready. *)
Theorem C12_destroy_frees_the_rest : forall cosd acosd nodes a t h, reach cosd acosd nodes a t h ->
  exists h', destroy_flags h = Ret tt h' /\ (forall b, b <> BKFunc -> h_live h' b = false) /\
  (h_live h' BKFunc = true <-> iib h = false /\ 0 < c_n_kernels (h_cfg h)).
Proof. exact destroy. Qed.
Print Assumptions C12_destroy_frees_the_rest.

Theorem C12_kernel_func_flags_leak_refuted : exists nodes a t h h',
  reach tcos tacos nodes a t h /\ destroy_flags h = Ret tt h' /\ h_live h' BKFunc = true.
Proof.
  exists tnodes, two_args, ready_trace, ready_handle. destruct (destroy _ _ _ _ _ _ ready_reach) as (h' & E & _ & L).
  exists h'. split; [exact ready_reach|]. split; [exact E|]. apply L. split; vm_compute; reflexivity.
Qed.
Print Assumptions C12_kernel_func_flags_leak_refuted.

Example C12_case : h_live full_handle BOmega = true /\ h_live ready_handle BOmega = false.
Proof. split; vm_compute; reflexivity. Qed.

(* ------------------------------------------------------------------------- *)
(** * C13                                                                     *)

(** After an accepted solution or bookkeeping call no later call is refused for a missing
    input, whatever was called in between. *)
Theorem C13_once_ready_always_ready : forall cosd acosd nodes a t h o v h1 t' h2 o' e h3,
  reach cosd acosd nodes a t h -> sized h o -> kind_of o = Solve -> runs o = true \/ o = UpdateVaried ->
  exec cosd acosd o h = Ret v h1 -> hist cosd acosd h1 t' h2 -> kind_of o' = Solve ->
  exec cosd acosd o' h2 = Fail e h3 -> missing_code e = None.
Proof. exact always_ready. Qed.
Print Assumptions C13_once_ready_always_ready.

(** Neither the gate nor the solution changes what the getters answer. *)
Theorem C13_solutions_keep_inputs : forall cosd acosd nodes a t h o ok h' g r,
  reach cosd acosd nodes a t h -> sized h o -> kind_of o = Solve -> steps cosd acosd h o ok h' ->
  kind_of g = Getter -> g <> GetQx -> exec cosd acosd g h = Ret r h -> exec cosd acosd g h' = Ret r h'.
Proof. exact solve_keeps. Qed.
Print Assumptions C13_solutions_keep_inputs.

Example C13_case : let h1 := next tcos tacos UpdateVaried full_handle in
  (exists v, exec tcos tacos UpdateVaried full_handle = Ret v h1) /\
  (forall r, answer (GetOmega 0) full_handle = Some r -> answer (GetOmega 0) h1 = Some r) /\
  accepted tcos tacos (SetOmega1 0 d_two) h1 = false /\
  accepted tcos tacos solve_it (next tcos tacos (SetOmega1 0 d_two) h1) = true.
Proof.
  cbv zeta. split; [exact (next_ok UpdateVaried full_handle ltac:(vm_compute; reflexivity))|].
  split; [|split; vm_compute; reflexivity]. intros r. vm_compute. auto.
Qed.
