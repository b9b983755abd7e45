(** Created handles, and histories of calls on them. *)
From Coq Require Import ZArith NArith List Bool Lia SpecFloat.
From Verif Require Import Base OptionsModel OptionsSpec OptionsProofs Dbl HandleModel HandleTable HandleWp
  HandleSetters HandleInv HandleSteps HandleGetters HandleSpec HandleFrame HandleGate HandleSolve HandleHist HandleCalls.
Import ListNotations.
Open Scope Z_scope.

(* ------------------------------------------------------------------------- *)
(** * The created handle                                                      *)

Lemma has_opt_on c x : has_opt c (bit (opt_index x)) = true <-> on (c_options c) x.
Proof. unfold has_opt, on. now rewrite tst_bit. Qed.

Lemma created_good a c : kernels_long_enough a -> create_config a = Ok c -> good c.
Proof.
  intros HL H. pose proof (create_dims_bounds a c HL H) as B. cbv zeta in B.
  destruct (create_stored_valid a c HL H) as [CO ON]. apply check_options_exact in CO.
  destruct B as (B1 & B2 & B3 & _ & _ & B6 & B7 & _ & B9).
  pose proof H as H0. apply create_ok_iff in H0; auto. destruct H0 as [[R _] EC].
  destruct R as [R1 R2 R3 R4 R5 R6 R7 R8 R9 R10 R11].
  assert (CD : has_opt c OPT_CALC_DERIVS = true <-> on (a_options a) CalcDerivs).
  { change OPT_CALC_DERIVS with (bit (opt_index CalcDerivs)). rewrite has_opt_on, ON. cbn. intuition discriminate. }
  assert (F : c_n_coef c = a_max_coef a /\ c_n_elem c = (if (a_n_stokes a =? 1) then 1 else 6) /\ c_n_quad c = a_n_quad a
    /\ c_n_layers c = a_n_layers a /\ c_n_kernels c = a_n_kernels a /\ c_n_ulevels c = a_n_out_levels a /\ c_n_umus c = a_n_out_thetas a
    /\ c_kernels c = firstn (Z.to_nat (a_n_kernels a)) (a_kernels a)).
  { rewrite EC. unfold create_dims. destruct (a_max_coef a =? 0); [|destruct (a_max_coef a <=? 2 * a_n_quad a)]; repeat split. }
  destruct F as (F1 & F2 & F3 & F4 & F5 & F6 & F7 & F8).
  assert (ND : 0 <= c_n_derivs c /\ (has_opt c OPT_CALC_DERIVS = true -> 1 <= c_n_derivs c) /\
     (has_opt c OPT_CALC_DERIVS = false -> c_n_derivs c = 0)).
  { destruct (has_opt c OPT_CALC_DERIVS) eqn:E.
    - destruct (B6 (proj1 CD eq_refl)). split; [lia|]. split; [auto|discriminate].
    - assert (N : ~ on (a_options a) CalcDerivs) by (rewrite <- CD; discriminate). rewrite (B7 N). split; [lia|]. split; [discriminate|auto]. }
  destruct ND as (D1 & D2 & D3).
  constructor; try assumption; rewrite ?F1, ?F3, ?F4, ?F5, ?F6, ?F7, ?B1; try lia.
  - unfold len. rewrite B9. lia.
  - intros i Hi. apply kernel_valid_iff. unfold create_config in H.
    destruct (kernels_ok_spec (a_kernels a) (Z.to_nat (a_n_kernels a))) as (b & Hb & Hbs).
    { unfold kernels_long_enough in HL. lia. }
    rewrite Hb in H.
    repeat match type of H with (if ?b then Err _ else _) = Ok _ => destruct b; [discriminate H|] end.
    destruct b; [|discriminate H]. apply (proj1 Hbs eq_refl (Z.to_nat i)); [lia|].
    unfold xz. rewrite F8. unfold kernels_long_enough in HL. rewrite (nth_error_nth' _ 0); [f_equal|lia].
    rewrite <- (firstn_skipn (Z.to_nat (a_n_kernels a)) (a_kernels a)) at 1. rewrite app_nth1; auto.
    rewrite firstn_length. lia.
  - rewrite F2. destruct (a_n_stokes a =? 1); lia.
  - unfold has_opt in *. destruct (N.testbit (a_options a) (opt_index NoAzimuthal)) eqn:E.
    + rewrite B2; [lia|exact E].
    + rewrite B3; [lia|]. unfold on. rewrite E. discriminate.
  - pose proof (vo_out _ CO) as (x & Hx & Ox & U).
    change OPT_OUTPUT_AT_TAUS with (bit (opt_index OutputAtTaus)). change OPT_OUTPUT_AT_LEVELS with (bit (opt_index OutputAtLevels)).
    destruct (has_opt c (bit (opt_index OutputAtTaus))) eqn:E1, (has_opt c (bit (opt_index OutputAtLevels))) eqn:E2; cbn; auto.
    + apply has_opt_on in E1, E2. pose proof (U OutputAtTaus (or_intror (or_introl eq_refl)) E1) as Q1.
      pose proof (U OutputAtLevels (or_introl eq_refl) E2) as Q2. congruence.
    + exfalso. destruct Hx as [<-|[<-|[]]]; apply has_opt_on in Ox; congruence.
Qed.

Section History.
Variables cosd acosd : dbl -> dbl.
Notation inv := (inv cosd).
Notation exec := (exec cosd acosd).
Notation steps := (steps cosd acosd).

Lemma handle0_inv nodes c : good c -> inv (handle0 nodes c).
Proof.
  intro G. constructor.
  - constructor; cbn; auto.
    + now left.
    + intros i Hi. exists (c_n_coef c). split; auto. pose proof (g_nc _ G). lia.
  - intros l v H. cbn in H |- *. destruct l; cbn in H; try discriminate H; try (injection H as <-; cbn; auto; fail).
    + destruct (has_opt c OPT_OUTPUT_AT_LEVELS) eqn:E; [|discriminate]. pose proof (g_nl _ G).
      destruct (i =? 0); [injection H as <-; cbn; intros; lia|]. destruct (i =? 1); [injection H as <-; cbn; intros; lia|discriminate].
    + destruct (in_range i (c_n_quad c)) eqn:E; [|discriminate]. injection H as <-. cbn. rewrite in_range_iff in E. lia.
    + injection H as <-. cbn. pose proof (g_nc _ G). lia.
    + injection H as <-. cbn. pose proof (g_nc2 _ G). lia.
  - intros l H. cbn in H |- *. destruct l; try discriminate H; cbn; try discriminate. cbn in H. now rewrite H.
  - intros l f H S. exfalso. unfold isset in S. apply flag_of_isflag in H. destruct f; try discriminate H; discriminate S.
  - discriminate.
Qed.

Lemma created_inv nodes a h : kernels_long_enough a -> create nodes a = Ok h -> inv h /\ iib h = true /\ h_alloc h = h_cfg h /\
  create_config a = Ok (h_cfg h) /\ forall f, isflag f = true -> h_mem h f = Some (VZ 0).
Proof.
  intros HL H. unfold create in H. destruct (create_config a) as [c| |] eqn:E; try discriminate H. injection H as <-.
  split; [apply handle0_inv; eapply created_good; eauto|]. repeat split; auto.
  intros f Hf. destruct f; try discriminate Hf; reflexivity.
Qed.

(* ------------------------------------------------------------------------- *)
(** * Histories                                                               *)

(** [hist h0 t h]: starting from [h0], the calls of [t] (latest first, each with whether it was
    accepted) lead to [h]; every array argument has at least the documented size. *)
Inductive hist (h0 : handle) : list (op * bool) -> handle -> Prop :=
| hist_nil : hist h0 [] h0
| hist_call t h o ok h' : hist h0 t h -> sized h o -> steps h o ok h' -> hist h0 ((o, ok) :: t) h'.

(** An accepted call about [x] was made; a call that may have left [x] set was made. *)
Definition surely (t : list (op * bool)) (x : item) : Prop := exists o, In (o, true) t /\ changes o x = true.
Definition maybe (t : list (op * bool)) (x : item) : Prop :=
  exists o ok, In (o, ok) t /\ changes o x = true /\ (ok = true \/ torn o = true).
Definition coef_clean (t : list (op * bool)) : Prop := forall o, is_set_coef o = true -> ~ In (o, false) t.
Definition unbroken (t : list (op * bool)) : Prop := forall fx, ~ In (Solution2 fx, false) t.
Definition no_solve (t : list (op * bool)) : Prop := forall o ok, In (o, ok) t -> kind_of o <> Solve.
Definition no_solve2 (t : list (op * bool)) : Prop := forall fx ok, ~ In (Solution2 fx, ok) t.

Lemma surely_maybe t x : surely t x -> maybe t x.
Proof. intros (o & H & C). exists o, true. auto. Qed.

Lemma hist_inv h0 t h : inv h0 -> hist h0 t h -> inv h.
Proof. intros I H. induction H; auto. eapply step_inv; eauto. Qed.
Lemma hist_alloc h0 t h : inv h0 -> hist h0 t h -> h_alloc h = h_alloc h0.
Proof. intros I H. induction H; auto. rewrite <- IHhist. eapply step_alloc; eauto using hist_inv. Qed.
Lemma hist_cfg h0 t h : inv h0 -> hist h0 t h -> unbroken t -> h_cfg h = h_cfg h0.
Proof.
  intros I H U. induction H; auto. rewrite <- IHhist by (intros fx Hx; apply (U fx); now right).
  eapply step_cfg; eauto using hist_inv. destruct o; try reflexivity. destruct ok; auto. elim (U fx). now left.
Qed.
Lemma hist_required h0 t h : inv h0 -> hist h0 t h -> required (h_cfg h) = required (h_cfg h0).
Proof.
  intros I H. rewrite (required_alloc cosd h) by eauto using hist_inv. rewrite (required_alloc cosd h0) by auto.
  now rewrite (hist_alloc h0 t h).
Qed.
Lemma hist_ready h0 t1 h1 t2 h2 : inv h0 -> hist h0 t1 h1 -> hist h1 t2 h2 -> iib h1 = false -> iib h2 = false.
Proof.
  intros I H1 H2 B. pose proof (hist_inv _ _ _ I H1) as I1. clear H1.
  induction H2 as [|t h o ok h' H IH SZ ST]; auto. exact (step_ready cosd acosd h o ok h' (hist_inv _ _ _ I1 H) ST IH).
Qed.
Lemma hist_unready h0 t h : hist h0 t h -> no_solve t -> iib h = iib h0.
Proof.
  intros H N. induction H; auto. rewrite <- IHhist by (intros o' ok' Ho; apply (N o' ok'); now right).
  eapply step_unready; eauto. apply (N o ok). now left.
Qed.

Lemma hist_mono h0 t h f : inv h0 -> hist h0 t h -> isflag f = true -> isset h0 f -> isset h f.
Proof.
  intros I H F S. induction H as [|t h o ok h' H IH SZ ST]; auto.
  exact (step_mono cosd acosd h o ok h' f (hist_inv _ _ _ I H) ST F IH).
Qed.

Lemma hist_sure h0 t h x : inv h0 -> hist h0 t h -> In x (required (h_cfg h0)) -> surely t x -> isset h (fl x).
Proof.
  intros I H RQ. induction H; intros (o' & Ho & C); [destruct Ho|].
  assert (I1 : inv h) by eauto using hist_inv.
  assert (RQ1 : In x (required (h_cfg h))) by (erewrite hist_required; eauto).
  destruct Ho as [E|Ho].
  - injection E as -> ->. eapply step_set; eauto.
  - eapply step_mono; eauto. 2:{ apply IHhist. exists o'. auto. }
    apply (needed_isflag (h_alloc h)). eapply required_needed; eauto.
Qed.

Lemma hist_maybe h0 t h x : inv h0 -> (forall f, isflag f = true -> h_mem h0 f = Some (VZ 0)) ->
  hist h0 t h -> isflag (fl x) = true -> isset h (fl x) -> maybe t x.
Proof.
  intros I Z0 H F. induction H; intro S.
  - unfold isset in S. rewrite (Z0 _ F) in S. discriminate.
  - assert (I1 : inv h) by eauto using hist_inv.
    destruct (step_new cosd acosd h o ok h' x I1) as [S1|[C D]]; auto.
    + destruct (IHhist S1) as (o' & ok' & Ho & Q). exists o', ok'. split; [now right|auto].
    + exists o, ok. split; [now left|auto].
Qed.

Lemma hist_coef h0 t h : inv h0 -> coefdef h0 -> hist h0 t h -> coef_clean t -> coefdef h.
Proof.
  intros I D H CC. induction H as [|t h o ok h' H IH SZ ST]; auto.
  apply (step_coef cosd acosd h o ok h' (hist_inv _ _ _ I H) SZ ST).
  - intro K. destruct ok; auto. elim (CC o K). now left.
  - apply IH. intros o' K Ho. apply (CC o' K). now right.
Qed.

Lemma coefdef0 h0 : (forall f, isflag f = true -> h_mem h0 f = Some (VZ 0)) -> coefdef h0.
Proof. intros Z0 _ i j k _ S. unfold isset in S. rewrite (Z0 (FlCoef i) eq_refl) in S. discriminate. Qed.
End History.
