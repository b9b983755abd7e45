(** Closed form of the calls that run a solver. *)
From Coq Require Import ZArith NArith List Bool Lia SpecFloat.
From Verif Require Import Base OptionsModel OptionsSpec OptionsProofs Dbl HandleModel HandleTable HandleWp
  HandleSetters HandleInv HandleSteps HandleGetters HandleSpec HandleFrame HandleGate.
Import ListNotations.
Open Scope Z_scope.

(** The contents of a numeric cell. *)
Definition cd (h : handle) (l : loc) : dbl := match h_mem h l with Some (VD d) => d | _ => d_zero end.

Definition dirty (h : handle) : bool := tst (h_dep h DUtaus) (N.lor DEP_UTAUS DEP_LTAU).

(** The check of the output optical depths, as a test on two lists. *)
Fixpoint rising (a b : dbl) (l : list dbl) : bool :=
  match l with
  | [] => true
  | u :: l' => negb (dle u a || dgt u b) && rising u b l'
  end.
Definition depths_ok (us ls : list dbl) : bool :=
  let a := fold_left dadd ls d_zero in
  match us with
  | [] => true
  | u :: l => negb (dlt u d_zero || dgt u a) && rising u a l
  end.

Definition utaus_of (h : handle) : list dbl := map (fun i => cd h (Utaus i)) (zseq 0 (c_n_ulevels (h_cfg h))).
Definition ltaus_of (h : handle) : list dbl := map (fun i => cd h (Ltau0 i)) (zseq 0 (c_n_layers (h_cfg h))).
Definition taus_ok (h : handle) : bool :=
  negb (has_opt (h_cfg h) OPT_OUTPUT_AT_TAUS && dirty h) || depths_ok (utaus_of h) (ltaus_of h).
Definition varied_ok (h : handle) : bool :=
  negb (has_opt (h_cfg h) OPT_CALC_DERIVS) || match h_mem h VariedUpd with Some (VZ z) => z =? 0 | _ => false end.

Definition allset (h : handle) : Prop := forall f, needed (h_alloc h) f = true -> isset h f.

Section Solve.
Variables cosd acosd : dbl -> dbl.
Notation inv := (inv cosd).
Notation exec := (exec cosd acosd).

Lemma typed_D h l : inv h -> h_mem h l <> None -> (forall c v, okv cosd c l v -> exists d, v = VD d) ->
  h_mem h l = Some (VD (cd h l)).
Proof.
  intros I D T. destruct (h_mem h l) as [v|] eqn:E; [|easy].
  destruct (T _ _ (i_typed _ _ I _ _ E)) as (d & ->). unfold cd. now rewrite E.
Qed.

Lemma sum_ok h l : forall a, (forall i, In i l -> acch h (Ltau0 i) /\ h_mem h (Ltau0 i) = Some (VD (cd h (Ltau0 i)))) ->
  sum_ltau l a h = Ret (fold_left dadd (map (fun i => cd h (Ltau0 i)) l) a) h.
Proof.
  induction l as [|i l IH]; intros a H; cbn [sum_ltau map fold_left]; [reflexivity|].
  destruct (H i (or_introl eq_refl)). erewrite bind_eq by (apply rdD_ok; eauto).
  apply IH. intros; apply H; now right.
Qed.

Lemma rising_ok h b : (forall i, 0 <= i < c_n_ulevels (h_cfg h) -> acch h (Utaus i) /\ h_mem h (Utaus i) = Some (VD (cd h (Utaus i)))) ->
  forall m a, Z.to_nat (c_n_ulevels (h_cfg h) - a) = m -> 1 <= a ->
  for_ (zseq a (c_n_ulevels (h_cfg h))) (fun i =>
      u <- rdD (Utaus i);; v <- rdD (Utaus (i - 1));;
      reject_if (dle u v || dgt u b) EM1) h
  = if rising (cd h (Utaus (a - 1))) b (map (fun i => cd h (Utaus i)) (zseq a (c_n_ulevels (h_cfg h)))) then Ret tt h else Fail EM1 h.
Proof.
  intro H. induction m as [|m IH]; intros a Hm Ha.
  - rewrite zseq_nil by lia. reflexivity.
  - rewrite zseq_cons by lia. cbn [for_ map rising].
    destruct (H a) as [A1 A2]; [lia|]. destruct (H (a - 1)) as [B1 B2]; [lia|].
    unfold bind at 1. erewrite bind_eq by (apply rdD_ok; eauto). erewrite bind_eq by (apply rdD_ok; eauto).
    unfold reject_if. destruct (_ || _); cbn [negb andb]; [reflexivity|]. unfold ret.
    rewrite IH by lia. now replace (a + 1 - 1) with a by lia.
Qed.

Lemma post_checks_ok h : inv h -> allset h -> check_inputs_post_checks h = if taus_ok h then Ret tt h else Fail EM1 h.
Proof.
  intros I AS. pose proof (i_core _ _ I) as C. pose proof (cfg_dims _ _ (k_cfg _ C)) as KC. pose proof (k_good _ C) as KG.
  unfold check_inputs_post_checks, taus_ok. rewrite (bind_eq cfg _ h (h_cfg h) h eq_refl).
  erewrite bind_eq by reflexivity. fold (dirty h).
  destruct (has_opt (h_cfg h) OPT_OUTPUT_AT_TAUS && dirty h) eqn:B; cbn [when negb orb]; [|reflexivity].
  apply andb_true_iff in B as [B _].
  assert (BA : has_opt (h_alloc h) OPT_OUTPUT_AT_TAUS = true) by (unfold OPT_OUTPUT_AT_TAUS in *; rewrite <- B; symmetry; apply opt_eq; [assumption|discriminate]).
  assert (LT : forall i, 0 <= i < c_n_layers (h_cfg h) -> acch h (Ltau0 i) /\ h_mem h (Ltau0 i) = Some (VD (cd h (Ltau0 i)))).
  { intros i Hi. rewrite (de_nl _ _ KC) in Hi. apply in_range_iff in Hi.
    assert (A : acch h (Ltau0 i)) by exact Hi. split; auto. apply typed_D; auto.
    - eapply (i_flag _ _ I _ (FlLtau i)); [reflexivity|now apply AS|exact Hi].
    - intros c v. cbn. destruct v; [easy|]. eauto. }
  assert (UT : forall i, 0 <= i < c_n_ulevels (h_cfg h) -> acch h (Utaus i) /\ h_mem h (Utaus i) = Some (VD (cd h (Utaus i)))).
  { intros i Hi. rewrite (de_nu _ _ KC) in Hi. apply in_range_iff in Hi.
    assert (A : acch h (Utaus i)).
    { unfold acch. cbn [acc]. rewrite Hi, <- (g_out _ KG), BA. reflexivity. }
    split; auto. apply typed_D; auto.
    - eapply (i_flag _ _ I _ FlUtaus); [reflexivity|now apply AS|exact (acc_mono _ _ _ A)].
    - intros c v. cbn. destruct v; [easy|]. eauto. }
  erewrite bind_eq by (apply sum_ok; intros i Hi; apply LT; now apply in_zseq in Hi).
  fold (ltaus_of h). pose proof (g_nu _ KG) as NU. rewrite <- (de_nu _ _ KC) in NU.
  destruct (UT 0) as [U1 U2]; [lia|]. erewrite bind_eq by (apply rdD_ok; eauto).
  unfold depths_ok, utaus_of. rewrite (zseq_cons 0) by lia. cbn [map].
  unfold bind, reject_if. destruct (_ || _); cbn [negb andb]; [reflexivity|]. unfold ret.
  fold (@ret unit tt). 
  exact (rising_ok h _ UT _ 1 eq_refl ltac:(lia)).
Qed.

Definition gated (h h1 : handle) : Prop :=
  if iib h then ready_of h h1 else h1 = h.

Lemma ready_allset h : inv h -> iib h = false -> allset h.
Proof. intros I B f. apply (i_ready _ _ I B). Qed.

Lemma varied_rd h : inv h -> exists z, rdZ VariedUpd h = Ret z h /\ h_mem h VariedUpd = Some (VZ z) /\ (z = 0 \/ z = 1).
Proof.
  intro I. pose proof (i_always _ _ I VariedUpd eq_refl) as A. destruct (h_mem h VariedUpd) as [v|] eqn:E; [|easy].
  pose proof (i_typed _ _ I _ _ E) as T. cbn in T. destruct v as [z|]; [|easy]. exists z. split; auto.
  now apply rdZ_ok.
Qed.

Lemma iib_rd h : inv h -> exists z, rdZ InputsInit h = Ret z h /\ negb (z =? 0) = iib h.
Proof. intro I. destruct (rd_ii h (core_ii _ (i_core _ _ I))) as (z & E & B). eauto. Qed.

Lemma gate_ok h : inv h ->
  (iib h = true /\ miss h (required (h_cfg h)) <> 0) \/
  (exists h1, gated h h1 /\ inv h1 /\ iib h1 = false /\
     (if iib h then check_inputs_initialized h = Ret 0 h1 /\ miss h (required (h_cfg h)) = 0 else h1 = h)).
Proof.
  intro I. unfold gated. destruct (iib h) eqn:B.
  - destruct (check_ok cosd h I B) as [[N E]|(Z0 & h1 & E & R)]; [left; auto|right].
    destruct (ready_inv cosd h h1 I B Z0 R). exists h1. auto 6.
  - right. exists h. auto.
Qed.

(** solution_preprocess *)
Lemma pre_miss h : inv h -> iib h = true -> miss h (required (h_cfg h)) <> 0 ->
  solution_preprocess h = Fail (EMissingM1 (miss h (required (h_cfg h)))) h.
Proof.
  intros I B N. unfold solution_preprocess. destruct (iib_rd h I) as (z & E & Bz).
  rewrite (bind_eq _ _ _ _ _ E), Bz, B.
  destruct (check_ok cosd h I B) as [[_ E1]|(Z0 & _)]; [|congruence].
  unfold bind at 1. rewrite (bind_eq _ _ _ _ _ E1).
  apply Z.eqb_neq in N. unfold reject_if. now rewrite N.
Qed.

Lemma pre_ok h h1 : inv h -> gated h h1 -> inv h1 -> iib h1 = false ->
  (if iib h then check_inputs_initialized h = Ret 0 h1 /\ miss h (required (h_cfg h)) = 0 else h1 = h) ->
  solution_preprocess h = if taus_ok h1 && varied_ok h1 then Ret tt h1 else Fail EM1 h1.
Proof.
  intros I G I1 B1 E0. unfold solution_preprocess. destruct (iib_rd h I) as (z & E & Bz).
  rewrite (bind_eq _ _ _ _ _ E), Bz.
  assert (X : (if iib h then r <- check_inputs_initialized;; reject_if (negb (r =? 0)) (EMissingM1 r) else ret tt) h = Ret tt h1).
  { destruct (iib h).
    - destruct E0 as [E1 _]. now rewrite (bind_eq _ _ _ _ _ E1).
    - now subst. }
  rewrite (bind_eq _ _ _ _ _ X). clear X.
  unfold bind at 1. rewrite (post_checks_ok h1 I1 (ready_allset _ I1 B1)).
  destruct (taus_ok h1); cbn [andb]; [|reflexivity].
  rewrite (bind_eq cfg _ h1 (h_cfg h1) h1 eq_refl). unfold varied_ok, when.
  destruct (has_opt (h_cfg h1) OPT_CALC_DERIVS); cbn [negb orb]; [|reflexivity].
  destruct (varied_rd h1 I1) as (v & Ev & Em & _). rewrite (bind_eq _ _ _ _ _ Ev), Em.
  unfold reject_if. destruct (v =? 0); reflexivity.
Qed.

(** The cells a solver reads all hold values. *)
Lemma for_rd {A} h (l : list A) (f : A -> M unit) : (forall x, In x l -> f x h = Ret tt h) -> for_ l f h = Ret tt h.
Proof.
  induction l as [|x l IH]; intro H; cbn [for_]; [reflexivity|].
  rewrite (bind_eq _ _ _ _ _ (H x (or_introl eq_refl))). apply IH. intros; apply H; now right.
Qed.
Lemma rd_skip h l : acch h l -> h_mem h l <> None -> (rd l;; ret tt) h = Ret tt h.
Proof. intros A D. destruct (h_mem h l) as [v|] eqn:E; [|easy]. now rewrite (bind_eq _ _ _ _ _ (rd_ok _ _ _ A E)). Qed.

Lemma in_if {A} (b : bool) (l : list A) x : In x (if b then l else []) -> b = true /\ In x l.
Proof. destruct b; cbn; intuition. Qed.

Lemma read_inputs_ok h : inv h -> allset h -> coefdef h -> read_inputs h = Ret tt h.
Proof.
  intros I AS CD. pose proof (i_core _ _ I) as C. pose proof (cfg_dims _ _ (k_cfg _ C)) as KC. pose proof (k_good _ C) as KG.
  pose proof (use_coef_eq _ _ I) as ES.
  assert (EO : forall k, k <> 0%N -> has_opt (h_cfg h) (bit k) = has_opt (h_alloc h) (bit k)) by (intros; now apply opt_eq).
  assert (FL : forall l f, flag_of (h_alloc h) l = Some f -> needed (h_alloc h) f = true -> acch h l ->
     (rd l;; ret tt) h = Ret tt h).
  { intros l f H1 H2 A. apply rd_skip; auto. eapply (i_flag _ _ I); eauto using acc_mono. }
  unfold read_inputs. rewrite (bind_eq cfg _ h (h_cfg h) h eq_refl).
  rewrite (bind_eq _ _ _ tt h); [rewrite (bind_eq _ _ _ tt h)|].
  - apply for_rd. intros i Hi. apply in_zseq in Hi. unfold read_kernel.
    assert (Hk := Hi). rewrite (de_nk _ _ KC) in Hk. pose proof Hk as Hk'. apply in_range_iff in Hk.
    assert (NN : forall l (k : val -> M unit) f, flag_of (h_alloc h) l = Some f -> needed (h_alloc h) f = true -> acch h l ->
       exists v, bind (rd l) k h = k v h).
    { intros l k f H1 H2 A. assert (D : h_mem h l <> None) by (eapply (i_flag _ _ I); eauto using acc_mono).
      destruct (h_mem h l) as [v|] eqn:E; [|easy]. exists v. now rewrite (bind_eq _ _ _ _ _ (rd_ok _ _ _ A E)). }
    destruct (NN (KAmp i) (fun _ => t <- kernel_at i;;
        for_ (zseq 0 (kernel_n_params t)) (fun j => rd (KPar i j);; ret tt);;
        (if t =? KERNEL_USER_DEFINED then rd (KFunc i);; ret tt else ret tt)) (FlKAmp i) eq_refl Hk Hk) as (v & ->).
    assert (KA : kernel_at i h = Ret (xz (c_kernels (h_alloc h)) i) h).
    { unfold kernel_at. rewrite (bind_eq cfg _ h (h_cfg h) h eq_refl). rewrite (ua_ok 0).
      - now rewrite (de_ks _ _ KC).
      - rewrite (de_ks _ _ KC), (g_ks _ KG). lia. }
    rewrite (bind_eq _ _ _ _ _ KA). rewrite (bind_eq _ _ _ tt h).
    + destruct (_ =? KERNEL_USER_DEFINED) eqn:U; [|reflexivity]. apply (FL (KFunc i) (FlKFunc i)); auto.
      cbn [needed]. now rewrite Hk, U.
    + apply for_rd. intros j Hj. apply in_zseq in Hj. apply (FL (KPar i j) (FlKPar i j)); auto.
      * cbn [needed]. rewrite Hk. now apply in_range_iff.
      * unfold acch. cbn [acc]. rewrite Hk. apply in_range_iff. pose proof (kernel_params_le_4 (xz (c_kernels (h_alloc h)) i)). lia.
  - apply for_rd. intros i Hi. apply in_zseq in Hi. rewrite (de_nl _ _ KC) in Hi. pose proof Hi as Hi'. apply in_range_iff in Hi.
    rewrite (bind_eq _ _ _ tt h).
    + unfold read_coefs. rewrite ES. destruct (has_slv (h_alloc h) SOLVERS_USE_COEF) eqn:UC; [|reflexivity].
      destruct (k_ncl _ C i Hi') as (n & En & Hn).
      erewrite bind_eq by (apply rdZ_ok; [|exact En]; unfold acch; cbn [acc]; now rewrite UC, Hi).
      apply for_rd. intros j Hj. apply for_rd. intros k Hk. apply in_zseq in Hj, Hk. rewrite (de_ne _ _ KC) in Hj.
      apply rd_skip.
      * unfold acch. cbn [acc]. rewrite UC, Hi. cbn [andb]. apply andb_true_iff. rewrite !in_range_iff. lia.
      * apply (CD UC); auto.
        -- apply AS. cbn [needed]. now rewrite UC, Hi.
        -- unfold ncl. now rewrite En.
    + apply for_rd. intros l [<-|[<-|[]]]; [apply (FL _ (FlLtau i))|apply (FL _ (FlOmega i))]; auto.
  - apply for_rd. intros l Hl. unfold scalar_cells in Hl. rewrite !ES in Hl.
    unfold OPT_PSA, OPT_OUTPUT_AT_LEVELS, OPT_OUTPUT_AT_TAUS, OPT_SOURCE_SOLAR, OPT_SOURCE_THERMAL in Hl.
    rewrite !EO in Hl by discriminate.
    fold OPT_PSA in Hl. fold OPT_OUTPUT_AT_LEVELS in Hl. fold OPT_OUTPUT_AT_TAUS in Hl. fold OPT_SOURCE_SOLAR in Hl.
    fold OPT_SOURCE_THERMAL in Hl.
    rewrite (de_nl _ _ KC), (de_nu _ _ KC), (de_nq _ _ KC), (de_num _ _ KC) in Hl.
    rewrite !in_app_iff in Hl.
    repeat match goal with H : _ \/ _ |- _ => destruct H as [H|H] end;
      try (apply in_if in Hl as [HB Hl]); cbn [In] in Hl;
      try match type of Hl with context [map] => idtac | _ =>
        repeat match goal with H : _ \/ _ |- _ => destruct H as [<-|H] end; try easy;
        first [ eapply FL; [reflexivity|cbn [needed]; auto; fail|reflexivity]
              | apply rd_skip; [reflexivity|apply (i_always _ _ I); reflexivity] ] end.
    + destruct Hl as [<-|Hl]; [eapply FL; [reflexivity|exact HB|reflexivity]|].
      apply in_map_iff in Hl as (i & <- & Hi). apply in_zseq, in_range_iff in Hi.
      eapply FL; [reflexivity|exact HB|]. unfold acch. cbn [acc]. now rewrite HB.
    + apply in_map_iff in Hl as (i & <- & Hi). apply in_zseq, in_range_iff in Hi.
      eapply FL; [reflexivity|exact HB|]. exact Hi.
    + apply in_map_iff in Hl as (i & <- & Hi). apply in_zseq, in_range_iff in Hi.
      eapply FL; [reflexivity|exact HB|]. unfold acch. cbn [acc]. now rewrite <- (g_out _ KG), HB.
    + apply in_map_iff in Hl as (i & <- & Hi). apply in_zseq in Hi. pose proof (g_nq _ KG).
      apply rd_skip; [unfold acch; cbn [acc]; now apply in_range_iff|].
      destruct (qx_def cosd h i I) as (d & ->); [|discriminate]. unfold qn.
      destruct (Z.leb_spec (c_n_umus (h_alloc h)) 0).
      * destruct (flag_val _ h FlUmus I eq_refl) as (n & -> & [-> | ->]); lia.
      * assert (S1 : isset h FlUmus) by (apply AS; cbn [needed]; rewrite Z.gtb_ltb; now apply Z.ltb_lt). unfold isset in S1. rewrite S1. lia.
    + destruct Hl as [<-|Hl]; [eapply FL; [reflexivity|exact HB|reflexivity]|].
      apply in_map_iff in Hl as (i & <- & Hi). apply in_zseq, in_range_iff in Hi.
      eapply FL; [reflexivity|exact HB|]. unfold acch. cbn [acc]. now rewrite HB.
Qed.

(** What a solver run may change. *)
Definition solved (h h' : handle) : Prop :=
  inv h' /\ h_cfg h' = h_cfg h /\ h_alloc h' = h_alloc h /\ h_live h' = h_live h /\
  forall l, (has_opt (h_alloc h) OPT_OUTPUT_AT_LEVELS = true \/ forall i, l <> Ulevels i) -> h_mem h' l = h_mem h l.

Lemma solved_setd h D : inv h -> solved h (setd D h).
Proof. intro I. split; [now apply inv_setd|]. repeat split. Qed.

Lemma get_solution_if h fx e : inv h -> read_inputs h = Ret tt h ->
  exists h', solved h h' /\ get_solution fx e h = if fx_ok fx then Ret tt h' else Fail e h'.
Proof.
  intros I RI. unfold get_solution. rewrite (bind_eq _ _ _ _ _ RI).
  rewrite (bind_eq cfg _ h (h_cfg h) h eq_refl).
  pose proof (i_core _ _ I) as C. pose proof (cfg_dims _ _ (k_cfg _ C)) as KC. pose proof (k_good _ C) as KG.
  set (h1 := setd (fx_dep fx) h).
  assert (W : wp (when (has_opt (h_cfg h) OPT_OUTPUT_AT_TAUS)
       (for_ (zseq 0 (c_n_ulevels (h_cfg h))) (fun i => wrZ (Ulevels i) (fx_lev fx i)))) (fun _ => solved h) (fun _ _ => False) h1).
  { pose proof (solved_setd h (fx_dep fx) I) as S0. fold h1 in S0. apply wp_when; [|intros _; exact S0]. intro T.
    assert (TA : has_opt (h_alloc h) OPT_OUTPUT_AT_LEVELS = false).
    { unfold OPT_OUTPUT_AT_TAUS in T. rewrite (opt_eq _ _ _ KC) in T by discriminate. fold OPT_OUTPUT_AT_TAUS in T.
      rewrite (g_out _ KG) in T. now apply negb_true_iff. }
    eapply (wp_for _ (solved h)); [exact S0| |auto]. intros i h2 Hi (J1 & J2 & J3 & J4 & J5). apply in_zseq in Hi.
    rewrite (de_nu _ _ KC) in Hi.
    apply wp_wr; [unfold acch; cbn [acc]; rewrite J3; now apply in_range_iff|]. split; [|repeat split; auto].
    - apply inv_wr; auto; try discriminate. cbn. rewrite J3, TA. discriminate.
    - intros l [Hl|Hl]; [congruence|]. rewrite apw1_other; auto. }
  unfold wp in W.
  erewrite bind_eq by reflexivity. fold (setd (fx_dep fx) h). fold h1.
  destruct (when _ _ h1) as [[] h'|? ?|] eqn:E; try easy. exists h'. split; auto.
  rewrite (bind_eq _ _ _ _ _ E). unfold reject_if. destruct (fx_ok fx); reflexivity.
Qed.

Lemma get_solution_wp h fx e : inv h -> allset h -> coefdef h ->
  exists h', solved h h' /\ get_solution fx e h = if fx_ok fx then Ret tt h' else Fail e h'.
Proof. intros I AS CD. apply get_solution_if; auto using read_inputs_ok. Qed.

Lemma pure_for {A} (l : list A) body : (forall i, pure (body i)) -> pure (for_ l body).
Proof. intro H. induction l; cbn [for_]; [apply pure_ret|apply pure_bind; auto]. Qed.

Lemma pure_read_inputs : pure read_inputs.
Proof.
  unfold read_inputs, read_coefs, read_kernel, kernel_at.
  repeat first [apply pure_rd|apply pure_rdZ|apply pure_ret|apply pure_cfg|apply pure_ua
    |match goal with |- pure (bind _ _) => apply pure_bind; [|intro] | |- pure (for_ _ _) => apply pure_for; intro
       | |- pure (if _ then _ else _) => apply pure_if | |- pure (match _ with _ => _ end) => apply pure_bind end].
Qed.

Lemma read_inputs_nofail h : match read_inputs h with Fail _ _ => False | _ => True end.
Proof.
  assert (FB : forall A B (m : M A) (k : A -> M B), (forall h, match m h with Fail _ _ => False | _ => True end) ->
     (forall a h, match k a h with Fail _ _ => False | _ => True end) -> forall h, match bind m k h with Fail _ _ => False | _ => True end).
  { intros A B m k H1 H2 h0. unfold bind. specialize (H1 h0). destruct (m h0); auto. apply H2. }
  assert (FF : forall A (l : list A) body, (forall i h, match body i h with Fail _ _ => False | _ => True end) ->
     forall h, match for_ l body h with Fail _ _ => False | _ => True end).
  { intros A l body H. induction l; cbn [for_]; [easy|]. apply FB; [apply H|intros _; exact IHl]. }
  assert (FR : forall l h, match rd l h with Fail _ _ => False | _ => True end).
  { intros l h0. unfold rd. destruct acc; [|exact Logic.I]. destruct (h_mem h0 l); exact Logic.I. }
  assert (FZ : forall l h, match rdZ l h with Fail _ _ => False | _ => True end).
  { intro l. unfold rdZ. apply FB; [apply FR|intros [] ?; exact Logic.I]. }
  assert (FU : forall A (x : list A) i h, match ua x i h with Fail _ _ => False | _ => True end).
  { intros A x i h0. unfold ua. destruct (i <? 0); [exact Logic.I|]. destruct nth_error; exact Logic.I. }
  revert h. unfold read_inputs, read_coefs, read_kernel, kernel_at.
  repeat first [apply FR | apply FZ | apply FU | (intro; exact Logic.I) | apply FF; intro
    | match goal with |- forall h, match (if ?b then _ else _) h with _ => _ end => destruct b
                    | |- forall h, match bind _ _ h with _ => _ end => apply FB; [|intro] end].
Qed.

Lemma get_solution_part h fx e : inv h ->
  get_solution fx e h = Undef \/
  exists h', solved h h' /\ get_solution fx e h = if fx_ok fx then Ret tt h' else Fail e h'.
Proof.
  intro I. pose proof (pure_read_inputs h) as P. pose proof (read_inputs_nofail h) as N.
  destruct (read_inputs h) as [[] h1|? ?|] eqn:E; [|easy|].
  - subst h1. right. now apply get_solution_if.
  - left. unfold get_solution, bind. now rewrite E.
Qed.
End Solve.
