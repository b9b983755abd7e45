(** Definedness of every call, the readiness gate and the release of the set-flag arrays,
    over whole histories. *)
From Coq Require Import ZArith NArith List Bool Lia SpecFloat.
From Verif Require Import Base OptionsModel OptionsSpec OptionsProofs Dbl HandleModel HandleTable HandleWp
  HandleSetters HandleInv HandleSteps HandleGetters HandleSpec HandleFrame HandleGate HandleSolve HandleHist HandleCalls
  HandleHistory HandleGetSet HandleRange HandleProofs.
Import ListNotations.
Open Scope Z_scope.

Section Ready.
Variables cosd acosd : dbl -> dbl.
Notation inv := (inv cosd).
Notation exec := (exec cosd acosd).
Notation steps := (steps cosd acosd).
Notation hist := (hist cosd acosd).

(* ------------------------------------------------------------------------- *)
(** * Every careful call is defined                                           *)

(** What the caller has to see to, beyond array sizes. *)
Definition careful (c : config) (t : list (op * bool)) (o : op) : Prop :=
  match o with
  | GetNCoef i | GetCoef i _ _ | GetOmega i | GetLtau i => within i (c_n_layers c)
  | GetKAmp i => within i (c_n_kernels c)
  | GetKPar i j => within i (c_n_kernels c) /\ within j (kernel_arity (kernel_type c i))
  | GetKernel i => 0 <= i
  | GetLambda => no_solve t \/ surely t ILambda
  | GetQx => c_n_umus c = 0 \/ surely t IOutThetas
  | Solution2 _ => forall x, In x (required c) -> surely t x
  | _ => True
  end.

Lemma coefdef_SR h h1 : SR cosd h h1 -> coefdef h -> coefdef h1.
Proof.
  intros (_ & _ & EA & _ & M) D S i j k Hi F Hj Hk. rewrite EA in *.
  assert (L : forall l, l <> InputsInit -> l <> VariedUpd -> (forall i, l <> Ulevels i) -> h_mem h1 l = h_mem h l)
    by (intros; apply M; auto).
  rewrite L by discriminate. apply D; auto.
  - unfold isset in *. now rewrite L in F by discriminate.
  - unfold ncl in *. now rewrite L in Hk by discriminate.
Qed.

Lemma getsol_defined h fx e : inv h -> iib h = false -> coefdef h -> get_solution fx e h <> Undef.
Proof.
  intros I B D. destruct (get_solution_wp cosd h fx e I (ready_allset cosd h I B) D) as (h' & _ & ->).
  destruct (fx_ok fx); discriminate.
Qed.

Lemma done_undef m h : m h <> Undef -> done m h <> Undef.
Proof. unfold done, bind, ret. destruct (m h); congruence. Qed.
Lemma wrap_undef {A} (m : M A) h : m h <> Undef -> wrap m h <> Undef.
Proof. unfold wrap. destruct (m h); congruence. Qed.

Lemma preget_defined h (k : M unit) : inv h -> coefdef h ->
  (forall h1, inv h1 -> iib h1 = false -> coefdef h1 -> k h1 <> Undef) -> (solution_preprocess;; k) h <> Undef.
Proof.
  intros I D K. pose proof (pre_SR cosd h I) as P. unfold bind.
  destruct (solution_preprocess h) as [[] h1|? h1|]; try easy. destruct P as [P B]. apply K; auto.
  - apply P.
  - eapply coefdef_SR; eauto.
Qed.

Lemma solution_defined h s o n fx : inv h -> coefdef h -> solution s o n fx h <> Undef.
Proof.
  intros I D. unfold solution.
  assert (RJ : forall b e (m : M unit), m h <> Undef -> (reject_if b e;; m) h <> Undef).
  { intros b e m H. unfold reject_if. destruct b; [discriminate|exact H]. }
  apply RJ. rewrite (bind_eq cfg _ h (h_cfg h) h eq_refl). do 6 apply RJ.
  apply preget_defined; auto using getsol_defined.
Qed.

Lemma solve_defined h o : kind_of o = Solve -> inv h -> coefdef h -> exec o h <> Undef.
Proof.
  intros K I D. destruct o; try discriminate K; cbn [HandleModel.exec]; apply done_undef.
  - unfold update_varied_layers, need_opt. rewrite bind_assoc.
    rewrite (bind_eq cfg _ h (h_cfg h) h eq_refl). unfold reject_if at 1.
    destruct (negb _); [discriminate|]. erewrite bind_eq by reflexivity.
    destruct (iib_rd cosd h I) as (z & E & Bz). rewrite (bind_eq _ _ _ _ _ E), Bz.
    destruct (gate_ok cosd h I) as [[B N]|(h1 & G & I1 & B1 & E1)].
    + rewrite B. destruct (check_ok cosd h I B) as [[_ E1]|(Z0 & _)]; [|congruence].
      unfold bind. rewrite E1. apply Z.eqb_neq in N. unfold reject_if. rewrite N. discriminate.
    + destruct (iib h).
      * destruct E1 as [E1 _]. unfold bind. rewrite E1. discriminate.
      * unfold bind, ret. discriminate.
  - now apply solution_defined.
  - apply wrap_undef. now apply solution_defined.
  - apply wrap_undef. now apply solution_defined.
  - apply wrap_undef. now apply solution_defined.
  - discriminate.
  - unfold local_query. apply preget_defined; auto. intros h1 I1 B1 D1.
    rewrite (bind_eq cfg _ h1 (h_cfg h1) h1 eq_refl). unfold CHECK_INDEX_RANGE, reject_if.
    destruct (_ || _); [discriminate|]. rewrite (bind_eq _ _ h1 tt h1 eq_refl).
    destruct (_ || _); [discriminate|]. rewrite (bind_eq _ _ h1 tt h1 eq_refl). now apply getsol_defined.
Qed.

Lemma solve2_defined h fx : inv h -> allset h -> coefdef h -> exec (Solution2 fx) h <> Undef.
Proof.
  intros I AS D. cbn [HandleModel.exec]. apply done_undef. unfold solution_2.
  rewrite (bind_eq cfg _ h (h_cfg h) h eq_refl).
  destruct (has_opt (h_cfg h) OPT_CALC_DERIVS) eqn:O1; [|discriminate].
  destruct (has_opt (h_cfg h) OPT_REVERSE_DERIVS) eqn:O2; [|discriminate].
  unfold reject_if. cbn [negb]. unfold bind at 1. unfold ret at 1. unfold bind at 1. unfold ret at 1.
  pose proof (on_cfg cosd h I O1) as EC. set (h1 := setc (off (h_cfg h)) h).
  assert (RO : cfg_rel (off (h_cfg h)) (h_alloc h)) by (rewrite <- EC; now apply on_off).
  assert (I1 : inv h1) by (apply inv_setc; auto).
  unfold bind at 1. unfold set_cfg at 1. fold (off (h_cfg h)). fold (setc (off (h_cfg h)) h). fold h1.
  destruct (get_solution_wp cosd h1 fx EM1 I1 AS D) as (h2 & S & E). unfold bind. rewrite E.
  destruct (fx_ok fx); discriminate.
Qed.

Lemma lambda_def h0 t h : inv h0 -> hist h0 t h -> surely t ILambda -> h_mem h Lambda <> None.
Proof.
  intros I H. induction H as [|t h o ok h' H IH SZ ST]; intros (o' & Ho & C); [destruct Ho|].
  pose proof (hist_inv cosd acosd _ _ _ I H) as I1.
  destruct (changes o ILambda) eqn:CH.
  - assert (S : simple o = true) by (destruct o; try discriminate CH; reflexivity).
    destruct (simple_step cosd acosd h o ok h' I1 SZ ST S) as [->|[A ->]].
    + destruct Ho as [Q|Ho]; [|apply IH; exists o'; auto]. injection Q as -> ->.
      pose proof (simple_R cosd acosd h o' (i_core _ _ I1) SZ S) as R. unfold HandleTable.R in R.
      destruct ST as (v & E). destruct (accept (h_cfg h) o') eqn:A; [|destruct R as (e & R); congruence].
      rewrite E in R. injection R as _ R. rewrite R. unfold effect. rewrite mem_post.
      destruct o'; try discriminate CH. rewrite (apw_val _ h Lambda (VD x)); cbn [writes]; [discriminate|now left|].
      intros u [U|[U|[]]]; [congruence|discriminate U].
    + destruct o; try discriminate CH. unfold effect. rewrite mem_post.
      rewrite (apw_val _ h Lambda (VD x)); cbn [writes]; [discriminate|now left|].
      intros u [U|[U|[]]]; [congruence|discriminate U].
  - rewrite (kept cosd acosd h o ok h' Lambda ILambda I1 SZ ST eq_refl); auto; [|discriminate].
    apply IH. destruct Ho as [Q|Ho]; [injection Q as -> ->; congruence|exists o'; auto].
Qed.

Lemma careful_defined h0 t h o : inv h0 -> iib h0 = true -> (forall f, isflag f = true -> h_mem h0 f = Some (VZ 0)) ->
  hist h0 t h -> coef_clean t -> sized h o -> careful (h_cfg h) t o -> exec o h <> Undef.
Proof.
  intros I B0 Z0 H CC SZ CF. pose proof (hist_inv cosd acosd _ _ _ I H) as I1.
  pose proof (hist_coef cosd acosd h0 t h I (coefdef0 h0 Z0) H CC) as D.
  destruct (kind_of o) eqn:K.
  - now apply setter_defined.
  - assert (G : is_getter o = true) by (destruct o; try discriminate K; reflexivity).
    assert (UM : o = GetQx -> isset h FlUmus \/ c_n_umus (h_cfg h) = 0).
    { intros ->. destruct CF as [Q|Q]; auto.
      destruct (Z.eq_dec (c_n_umus (h_cfg h)) 0); auto. left.
      apply (hist_sure cosd acosd h0 t h IOutThetas I H); auto.
      rewrite <- (hist_required cosd acosd h0 t h I H). unfold required.
      pose proof (g_num _ (k_good _ (i_core _ _ I1))). pose proof (de_num _ _ (cfg_dims _ _ (k_cfg _ (i_core _ _ I1)))) as E.
      rewrite !in_app_iff. do 7 right. left. destruct (Z.ltb_spec 0 (c_n_umus (h_cfg h))); [now left|lia]. }
    assert (GS : gsafe h o).
    { destruct o; try exact Logic.I; cbn [careful gsafe] in *; unfold within in *; auto.
      intros _. destruct CF as [CF1 CF2]. split; auto.
      rewrite (kernel_arity_eq cosd) in CF2 by auto. pose proof (kernel_params_le_4 (xz (c_kernels (h_cfg h)) i)). lia. }
    assert (GD : gaccept h o = true -> gdef_ok h o).
    { intro GA. destruct o; try exact Logic.I.
      - destruct CF as [CF|CF].
        + apply (lambda_cell cosd h I1 GA). right. rewrite (hist_unready cosd acosd _ _ _ H CF). exact B0.
        + exact (lambda_def h0 t h I H CF).
      - apply (coefdef_cell cosd); auto.
      - now apply UM. }
    pose proof (getter_R cosd acosd h o I1 G GS GD) as R. unfold HandleTable.R in R.
    destruct (gaccept h o); [rewrite R; discriminate|destruct R as (e & R); rewrite R; discriminate].
  - now apply solve_defined.
  - destruct o; try discriminate K. apply solve2_defined; auto.
    intros f N. destruct (needed_required cosd h f I1 N) as (x & <- & RQ).
    apply (hist_sure cosd acosd h0 t h x I H).
    + now rewrite <- (hist_required cosd acosd h0 t h I H).
    + now apply CF.
  - destruct o; try discriminate K. rewrite clear_ok. discriminate.
Qed.

(* ------------------------------------------------------------------------- *)
(** * The readiness gate                                                      *)

Definition fresh_flags (h : handle) : Prop := forall f, isflag f = true -> h_mem h f = Some (VZ 0).

Lemma miss_hist h0 t h : inv h0 -> fresh_flags h0 -> hist h0 t h -> miss h (required (h_cfg h)) <> 0 ->
  exists a x b, required (h_cfg h0) = a ++ x :: b /\ code x = miss h (required (h_cfg h)) /\ ~ surely t x /\
    forall y, In y a -> maybe t y.
Proof.
  intros I Z0 H N. pose proof (hist_inv cosd acosd _ _ _ I H) as I1.
  pose proof (hist_required cosd acosd h0 t h I H) as RQ.
  destruct (miss_first h _ N) as (a & x & b & E & C & F & A). exists a, x, b. rewrite <- RQ. split; [exact E|].
  split; [exact C|]. split.
  - intro S. assert (In x (required (h_cfg h))) as IN by (rewrite E; apply in_elt).
    pose proof (hist_sure cosd acosd h0 t h x I H) as HS. rewrite <- RQ in HS. specialize (HS IN S).
    apply (fset_isset cosd h) in HS; auto; [congruence|].
    apply (needed_isflag (h_alloc h)). eapply required_needed; eauto.
  - intros y Hy. assert (IN : In y (required (h_cfg h))) by (rewrite E; apply in_or_app; now left).
    pose proof (needed_isflag _ _ (required_needed cosd h y I1 IN)) as FL.
    apply (hist_maybe cosd acosd h0 t h y I Z0 H FL). apply (fset_isset cosd h); auto.
Qed.

Definition missing_code (e : errc) : option Z := match e with EMissingM1 k | EMissingInt k => Some k | _ => None end.

Lemma getsol_nomiss h fx e h' e' : inv h -> get_solution fx e h = Fail e' h' -> e' = e.
Proof.
  intros I E. destruct (get_solution_part cosd h fx e I) as [Q|(h2 & _ & Q)]; rewrite Q in E; [discriminate|].
  destruct (fx_ok fx); [discriminate|now injection E].
Qed.

Lemma pre_fail h e h' : inv h -> solution_preprocess h = Fail e h' ->
  (e = EM1) \/ (e = EMissingM1 (miss h (required (h_cfg h))) /\ miss h (required (h_cfg h)) <> 0 /\ h' = h /\ iib h = true).
Proof.
  intros I E. destruct (gate_ok cosd h I) as [[B N]|(h1 & G & I1 & B1 & E1)].
  - right. rewrite (pre_miss cosd h I B N) in E. injection E as <- <-. auto.
  - left. rewrite (pre_ok cosd h h1 I G I1 B1 E1) in E. destruct (_ && _); [discriminate|now injection E].
Qed.

Lemma solve_missing h o e h' k : kind_of o = Solve -> inv h -> exec o h = Fail e h' -> missing_code e = Some k ->
  k = miss h (required (h_cfg h)) /\ miss h (required (h_cfg h)) <> 0 /\ h' = h /\ iib h = true.
Proof.
  intros K I E C.
  assert (DN : forall m : M unit, done m h = Fail e h' -> m h = Fail e h').
  { intros m. unfold done, bind, ret. destruct (m h); try discriminate. intro Q. now injection Q as <- <-. }
  assert (PG : forall k' : M unit, (solution_preprocess;; k') h = Fail e h' ->
     (forall h1 e1 h2, inv h1 -> k' h1 = Fail e1 h2 -> missing_code e1 = None) ->
     k = miss h (required (h_cfg h)) /\ miss h (required (h_cfg h)) <> 0 /\ h' = h /\ iib h = true).
  { intros k' Q NM. unfold bind in Q. pose proof (pre_SR cosd h I) as P.
    destruct (solution_preprocess h) as [[] h1|e1 h1|] eqn:PE; [|injection Q as -> ->|discriminate].
    - rewrite (NM h1 e h' (proj1 (proj1 P)) Q) in C. discriminate.
    - destruct (pre_fail h e h' I PE) as [->|(-> & N & -> & B)]; [discriminate|]. injection C as <-. auto. }
  assert (GN : forall h1 fx e1 h2, inv h1 -> get_solution fx EInt h1 = Fail e1 h2 -> missing_code e1 = None).
  { intros h1 fx e1 h2 I1 Q. now rewrite (getsol_nomiss _ _ _ _ _ I1 Q). }
  assert (SOL : forall s oo n fx, solution s oo n fx h = Fail e h' ->
     k = miss h (required (h_cfg h)) /\ miss h (required (h_cfg h)) <> 0 /\ h' = h /\ iib h = true).
  { intros s oo n fx Q. unfold solution in Q.
    assert (RJ : forall b (m : M unit), (reject_if b EInt;; m) h = Fail e h' -> m h = Fail e h').
    { intros b m. unfold reject_if. destruct b; [|auto]. intro R. injection R as <- <-. discriminate C. }
    apply RJ in Q. rewrite (bind_eq cfg _ h (h_cfg h) h eq_refl) in Q. do 6 apply RJ in Q.
    apply PG in Q; auto. intros; eapply GN; eauto. }
  assert (WR : forall m : M unit, wrap m h = Fail e h' -> False).
  { intros m. unfold wrap. destruct (m h); try discriminate. intro Q. injection Q as <- _. discriminate C. }
  destruct o; try discriminate K; cbn [HandleModel.exec] in E; apply DN in E.
  - unfold update_varied_layers, need_opt in E. rewrite bind_assoc in E.
    rewrite (bind_eq cfg _ h (h_cfg h) h eq_refl) in E. unfold reject_if at 1 in E.
    destruct (negb _); [injection E as <- <-; discriminate C|]. erewrite bind_eq in E by reflexivity.
    destruct (iib_rd cosd h I) as (z & Ez & Bz). rewrite (bind_eq _ _ _ _ _ Ez), Bz in E.
    destruct (gate_ok cosd h I) as [[B N]|(h1 & G & I1 & B1 & E1)].
    + rewrite B in E. destruct (check_ok cosd h I B) as [[_ E1]|(Z1 & _)]; [|congruence].
      unfold bind in E. rewrite E1 in E. pose proof N as N0. apply Z.eqb_neq in N. unfold reject_if in E. rewrite N in E.
      injection E as <- <-. injection C as <-. auto.
    + destruct (iib h).
      * destruct E1 as [E1 _]. unfold bind in E. rewrite E1 in E. discriminate E.
      * unfold bind, ret in E. discriminate E.
  - eauto.
  - now elim (WR _ E).
  - now elim (WR _ E).
  - now elim (WR _ E).
  - injection E as <- _. discriminate C.
  - unfold local_query in E. apply PG in E; auto. intros h1 e1 h2 I1.
    rewrite (bind_eq cfg _ h1 (h_cfg h1) h1 eq_refl). unfold CHECK_INDEX_RANGE, reject_if.
    destruct (_ || _); [intro Q; injection Q as <- _; reflexivity|]. rewrite (bind_eq _ _ h1 tt h1 eq_refl).
    destruct (_ || _); [intro Q; injection Q as <- _; reflexivity|]. rewrite (bind_eq _ _ h1 tt h1 eq_refl). now apply GN.
Qed.

Lemma gate_reports h0 t h o e h' k : inv h0 -> fresh_flags h0 -> hist h0 t h -> kind_of o = Solve ->
  exec o h = Fail e h' -> missing_code e = Some k ->
  h' = h /\ exists a x b, required (h_cfg h0) = a ++ x :: b /\ code x = k /\ ~ surely t x /\ forall y, In y a -> maybe t y.
Proof.
  intros I Z0 H K E C. destruct (solve_missing h o e h' k K (hist_inv cosd acosd _ _ _ I H) E C) as (-> & N & -> & _).
  split; auto. apply (miss_hist h0 t h); auto.
Qed.

Lemma allset_maybe h0 t h : inv h0 -> fresh_flags h0 -> hist h0 t h -> allset h ->
  forall x, In x (required (h_cfg h0)) -> maybe t x.
Proof.
  intros I Z0 H AS x IN. pose proof (hist_inv cosd acosd _ _ _ I H) as I1.
  rewrite <- (hist_required cosd acosd h0 t h I H) in IN. pose proof (required_needed cosd h x I1 IN) as N.
  apply (hist_maybe cosd acosd h0 t h x I Z0 H (needed_isflag _ _ N)). now apply AS.
Qed.

(** What passing the gate shows. *)
Lemma pre_pass h u h1 : inv h -> solution_preprocess h = Ret u h1 ->
  allset h /\ taus_ok h = true /\ varied_ok h = true /\ SR cosd h h1 /\ iib h1 = false /\ gated h h1.
Proof.
  intros I E. pose proof (pre_SR cosd h I) as P. rewrite E in P. destruct P as [P B1].
  destruct (gate_ok cosd h I) as [[B N]|(h2 & G & I2 & B2 & E2)].
  { rewrite (pre_miss cosd h I B N) in E. discriminate E. }
  rewrite (pre_ok cosd h h2 I G I2 B2 E2) in E. destruct (taus_ok h2 && varied_ok h2) eqn:TV; [|discriminate E].
  injection E as _ <-. apply andb_true_iff in TV as [T V].
  assert (MM : forall l, l <> InputsInit -> h_mem h2 l = h_mem h l).
  { intros l L. unfold gated in G. destruct (iib h); [|now subst]. destruct G as (_ & _ & _ & -> & _). apply upd_other. congruence. }
  assert (EC : h_cfg h2 = h_cfg h /\ h_dep h2 = h_dep h /\ h_alloc h2 = h_alloc h).
  { unfold gated in G. destruct (iib h); [|now subst]. destruct G as (? & ? & ? & _); auto. }
  destruct EC as (EC & ED & EA).
  split; [|split; [|split; [|auto]]].
  - intros f N. pose proof (ready_allset cosd h2 I2 B2 f) as Q. rewrite EA in Q. specialize (Q N). unfold isset in *.
    rewrite MM in Q; auto. intros ->. apply needed_isflag in N. discriminate N.
  - unfold taus_ok, dirty, utaus_of, ltaus_of, cd in *. rewrite EC, ED in T. rewrite <- T. f_equal. f_equal;
      apply map_ext; intro; rewrite MM by discriminate; reflexivity.
  - unfold varied_ok in *. rewrite EC, MM in V by discriminate. exact V.
Qed.

Lemma runs_pass h o v h' : inv h -> kind_of o = Solve -> runs o = true -> exec o h = Ret v h' ->
  exists h1, solution_preprocess h = Ret tt h1.
Proof.
  intros I K R E.
  assert (DN : forall m : M unit, done m h = Ret v h' -> exists u, m h = Ret u h').
  { intros m. unfold done, bind, ret. destruct (m h) as [u h2|? ?|]; try discriminate. intro Q. injection Q as _ <-. eauto. }
  assert (PG : forall (k : M unit) u, (solution_preprocess;; k) h = Ret u h' -> exists h1, solution_preprocess h = Ret tt h1).
  { intros k u Q. apply bind_inv in Q as ([] & h1 & Q & _). eauto. }
  assert (SOL : forall s oo n fx u, solution s oo n fx h = Ret u h' -> exists h1, solution_preprocess h = Ret tt h1).
  { intros s oo n fx u Q. unfold solution in Q.
    assert (RJ : forall b e (m : M unit), (reject_if b e;; m) h = Ret u h' -> m h = Ret u h').
    { intros b e m. unfold reject_if. destruct b; [discriminate|auto]. }
    apply RJ in Q. rewrite (bind_eq cfg _ h (h_cfg h) h eq_refl) in Q. do 6 apply RJ in Q. eauto. }
  assert (WR : forall (m : M unit) u, wrap m h = Ret u h' -> m h = Ret u h').
  { intros m u. unfold wrap. destruct (m h); try discriminate. auto. }
  destruct o; try discriminate K; try discriminate R; cbn [HandleModel.exec] in E; apply DN in E as (u & E); eauto;
    try (apply WR in E; eauto).
Qed.
End Ready.
