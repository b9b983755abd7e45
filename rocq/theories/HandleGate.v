(** The readiness gate in closed form, and the cells a solver reads. *)
From Coq Require Import ZArith NArith List Bool Lia SpecFloat.
From Verif Require Import Base OptionsModel OptionsSpec OptionsProofs Dbl HandleModel HandleTable HandleWp
  HandleSetters HandleInv HandleSteps HandleGetters HandleSpec HandleFrame.
Import ListNotations.
Open Scope Z_scope.

(** The set flag of a required quantity. *)
Definition fl (x : item) : loc :=
  match x with
  | IDoub => FlDoub | IPade => FlPade | ISos => FlSos | IFourierTol => FlFourierTol
  | ILambda => FlLambda | IPlanetR => FlPlanetR | ILevelsZ => FlLevelsZ | IOutLevels => FlUlevels
  | IOutTaus => FlUtaus | IOutThetas => FlUmus | IFIsoTop => FlFIsoTop | IFIsoBot => FlFIsoBot
  | IF0 => FlF0 | ITheta0 => FlMu0 | IPhi0 => FlPhi0 | ILevelsB => FlLevelsB | ISurfaceB => FlSurfaceB
  | ICoef i => FlCoef i | IOmega i => FlOmega i | ILtau i => FlLtau i
  | IKAmp i => FlKAmp i | IKPar i j => FlKPar i j | IKFunc i => FlKFunc i
  | _ => VariedUpd
  end.

Definition fset (h : handle) (f : loc) : bool :=
  match h_mem h f with Some (VZ z) => negb (z =? 0) | _ => false end.

Fixpoint miss (h : handle) (l : list item) : Z :=
  match l with
  | [] => 0
  | x :: l' => if fset h (fl x) then miss h l' else code x
  end.

Lemma code_nz x : code x <> 0. Proof. destruct x; discriminate. Qed.

Lemma miss_app h a b : miss h (a ++ b) = if miss h a =? 0 then miss h b else miss h a.
Proof.
  induction a as [|x a IH]; cbn [app miss]; [reflexivity|].
  destruct (fset h (fl x)); auto. destruct (Z.eqb_spec (code x) 0) as [E|]; auto.
  now apply code_nz in E.
Qed.

Lemma miss_zero h l : miss h l = 0 <-> forall x, In x l -> fset h (fl x) = true.
Proof.
  induction l as [|x l IH]; cbn [miss In]; [intuition|].
  destruct (fset h (fl x)) eqn:E.
  - rewrite IH. split; [|intuition]. intros H y [<-|Hy]; auto.
  - split.
    + intro H. now apply code_nz in H.
    + intro H. specialize (H x (or_introl eq_refl)). congruence.
Qed.

(** The reported code belongs to an unset quantity, everything before it is set. *)
Lemma miss_first h l : miss h l <> 0 ->
  exists a x b, l = a ++ x :: b /\ code x = miss h l /\ fset h (fl x) = false /\
    forall y, In y a -> fset h (fl y) = true.
Proof.
  induction l as [|x l IH]; cbn [miss]; [easy|]. destruct (fset h (fl x)) eqn:E.
  - intro H. destruct (IH H) as (a & y & b & -> & C & F & A). exists (x :: a), y, b. repeat split; auto.
    intros z [<-|Hz]; auto.
  - intros _. exists [], x, l. repeat split; auto.
Qed.

Definition reqm (h : handle) (m : M Z) (xs : list item) : Prop := m h = Ret (miss h xs) h.

Lemma fm_ok h ms xss : Forall2 (reqm h) ms xss -> reqm h (first_missing ms) (concat xss).
Proof.
  induction 1 as [|m xs ms xss H _ IH]; unfold reqm in *; cbn [first_missing concat]; [reflexivity|].
  rewrite (bind_eq _ _ _ _ _ H), miss_app. destruct (miss h xs =? 0) eqn:E; auto.
Qed.

Lemma upto_zseq n : upto n = zseq 0 n.
Proof. unfold upto, zseq. rewrite Z.sub_0_r. apply map_ext. intro. lia. Qed.

Lemma arity_ok t : kernel_is_valid t = true -> kernel_n_params t = kernel_arity t.
Proof.
  intro E. unfold kernel_n_params. rewrite E. apply kernel_valid_iff in E.
  assert (t = 0 \/ t = 1 \/ t = 2 \/ t = 3 \/ t = 4 \/ t = 5 \/ t = 6 \/ t = 7 \/ t = 8 \/ t = 9 \/ t = 10) by lia.
  repeat match goal with H : _ \/ _ |- _ => destruct H as [->|H] | H : t = _ |- _ => subst t end; reflexivity.
Qed.

Lemma concat_map_flat {A B} (f : A -> list B) l : concat (map f l) = flat_map f l.
Proof. symmetry. apply flat_map_concat_map. Qed.

Section Gate.
Variables cosd acosd : dbl -> dbl.
Notation inv := (inv cosd).
Notation exec := (exec cosd acosd).

Lemma fset_isset h f : inv h -> isflag f = true -> (fset h f = true <-> isset h f).
Proof.
  intros I F. destruct (flag_val _ h f I F) as (n & E & [-> | ->]); unfold fset, isset; rewrite E; cbn;
    split; congruence.
Qed.

Lemma req_ok h b f x : inv h -> isflag f = true -> (b = true -> acch h f) -> f = fl x -> 
  reqm h (req b f (code x)) (if_ b [x]).
Proof.
  intros I F A ->. unfold reqm, req. destruct b; cbn [if_ miss]; [|reflexivity].
  destruct (flag_val _ h (fl x) I F) as (n & E & _).
  erewrite bind_eq by (apply rdZ_ok; [now apply A|exact E]). unfold fset. rewrite E.
  destruct (n =? 0); reflexivity.
Qed.

Lemma req_no h f k : reqm h (req false f k) []. Proof. reflexivity. Qed.

Ltac rq := match goal with |- reqm _ (req ?b ?f ?k) (if_ ?b' [?x]) => change k with (code x); apply req_ok end.

Lemma has_slv_g c : has_slv c SOLVERS_USE_G = false.
Proof. unfold has_slv, tst, SOLVERS_USE_G. now rewrite N.land_0_r. Qed.

Definition scal (c : config) : list (list item) :=
  let opt := has_opt c in let slv := has_slv c in
  [if_ (slv SOLVERS_DOUBLING) [IDoub]; if_ (slv SOLVER_PADE_ADD) [IPade];
   if_ (slv SOLVER_SOS) [ISos]; if_ true [IFourierTol]; if_ (opt OPT_PSA) [IPlanetR]; if_ (opt OPT_PSA) [ILevelsZ];
   if_ (opt OPT_OUTPUT_AT_LEVELS) [IOutLevels]; if_ (opt OPT_OUTPUT_AT_TAUS) [IOutTaus];
   if_ (c_n_umus c >? 0) [IOutThetas]; if_ true [IFIsoTop]; if_ true [IFIsoBot];
   if_ (opt OPT_SOURCE_SOLAR) [IF0]; if_ (opt OPT_SOURCE_SOLAR) [ITheta0]; if_ (opt OPT_SOURCE_SOLAR) [IPhi0];
   if_ (opt OPT_SOURCE_THERMAL) [ILevelsB]; if_ (opt OPT_SOURCE_THERMAL) [ISurfaceB]].
Definition layr (c : config) (i : Z) : list (list item) :=
  [[]; if_ (has_slv c SOLVERS_USE_COEF) [ICoef i]; if_ true [IOmega i]; if_ true [ILtau i]].
Definition kern (c : config) (i : Z) : list item :=
  concat [if_ true [IKAmp i];
          concat (map (fun j => if_ true [IKPar i j]) (zseq 0 (kernel_n_params (xz (c_kernels c) i))));
          if_ (xz (c_kernels c) i =? KERNEL_USER_DEFINED) [IKFunc i]].

Lemma required_eq c : (forall i, 0 <= i < c_n_kernels c -> kernel_is_valid (xz (c_kernels c) i) = true) ->
  required c = concat (scal c ++ concat (map (layr c) (zseq 0 (c_n_layers c)))
                       ++ map (kern c) (zseq 0 (c_n_kernels c))).
Proof.
  intro V. rewrite !concat_app. unfold required. rewrite !upto_zseq.
  change SOLVERS_DOUBLING with SOLVER_DOUB_ADD.
  assert (E1 : forall c, concat (scal c) =
    if_ (has_slv c SOLVER_DOUB_ADD) [IDoub] ++ if_ (has_slv c SOLVER_PADE_ADD) [IPade]
  ++ if_ (has_slv c SOLVER_SOS) [ISos] ++ [IFourierTol]
  ++ if_ (has_opt c OPT_PSA) [IPlanetR; ILevelsZ]
  ++ if_ (has_opt c OPT_OUTPUT_AT_LEVELS) [IOutLevels] ++ if_ (has_opt c OPT_OUTPUT_AT_TAUS) [IOutTaus]
  ++ if_ (0 <? c_n_umus c) [IOutThetas]
  ++ [IFIsoTop; IFIsoBot]
  ++ if_ (has_opt c OPT_SOURCE_SOLAR) [IF0; ITheta0; IPhi0]
  ++ if_ (has_opt c OPT_SOURCE_THERMAL) [ILevelsB; ISurfaceB]).
  { intro c0. unfold scal. cbn [concat]. rewrite Z.gtb_ltb. change SOLVERS_DOUBLING with SOLVER_DOUB_ADD.
    destruct (has_opt c0 OPT_PSA), (has_opt c0 OPT_SOURCE_SOLAR), (has_opt c0 OPT_SOURCE_THERMAL);
      cbn [if_ app]; rewrite ?app_nil_r; reflexivity. }
  rewrite E1, <- !app_assoc. repeat f_equal.
  - induction (zseq 0 (c_n_layers c)) as [|i l IH]; cbn [flat_map map concat]; [reflexivity|].
    rewrite concat_app, <- IH. unfold layr. cbn [concat app if_]. rewrite <- !app_assoc.
    change SOLVERS_USE_COEF with SOLVERS_ALL. reflexivity.
  - rewrite concat_map_flat. rewrite !flat_map_concat_map. f_equal. apply map_ext_in. intros i Hi. apply in_zseq in Hi.
    unfold kern. cbn [concat if_ app]. f_equal. rewrite app_nil_r. f_equal.
    rewrite upto_zseq. fold (kernel_type c i). rewrite <- arity_ok by (now apply V).
    rewrite concat_map_flat. unfold kernel_type, xz, dn. induction (zseq 0 _) as [|j l IH]; cbn; [reflexivity|].
    now rewrite IH.
Qed.

Definition ready_of (h h' : handle) : Prop :=
  h_cfg h' = h_cfg h /\ h_alloc h' = h_alloc h /\ h_dep h' = h_dep h /\
  h_mem h' = upd (h_mem h) InputsInit (VZ 0) /\
  forall b, h_live h' b = match b with BKFunc => h_live h b | _ => false end.

Lemma good_cfg h : inv h -> forall i, 0 <= i < c_n_kernels (h_cfg h) ->
  kernel_is_valid (xz (c_kernels (h_cfg h)) i) = true.
Proof.
  intros I i Hi. pose proof (cfg_dims _ _ (k_cfg _ (i_core _ _ I))) as KC.
  rewrite (de_ks _ _ KC). apply (g_kv _ (k_good _ (i_core _ _ I))). now rewrite <- (de_nk _ _ KC).
Qed.

Lemma first_ok h : inv h -> iib h = true -> let c := h_cfg h in
  reqm h (first_missing (reqs_scalar c ++ concat (map (reqs_layer c) (zseq 0 (c_n_layers c)))
            ++ map reqs_kernel (zseq 0 (c_n_kernels c)))) (required c).
Proof.
  intros I B c. rewrite required_eq by (now apply good_cfg). apply fm_ok.
  pose proof (i_core _ _ I) as C. pose proof (cfg_dims _ _ (k_cfg _ C)) as KC. pose proof (k_good _ C) as KG.
  apply Forall2_app; [|apply Forall2_app].
  - unfold reqs_scalar, scal. repeat apply Forall2_cons; try apply Forall2_nil; rq; auto; intros; reflexivity.
  - assert (X : forall l, (forall i, In i l -> 0 <= i < c_n_layers (h_alloc h)) ->
      Forall2 (reqm h) (concat (map (reqs_layer c) l)) (concat (map (layr c) l))).
    { induction l as [|i l IH]; intro H; cbn [map concat]; [constructor|].
      apply Forall2_app; [|apply IH; intros; apply H; now right].
      specialize (H i (or_introl eq_refl)). apply in_range_iff in H.
      unfold reqs_layer, layr. rewrite has_slv_g.
      repeat apply Forall2_cons; try apply Forall2_nil; try apply req_no; rq; auto; intros; unfold acch; cbn [acc]; rewrite (k_live _ C), B, H; reflexivity. }
    apply X. intros i Hi. apply in_zseq in Hi. now rewrite <- (de_nl _ _ KC).
  - assert (X : forall l, (forall i, In i l -> 0 <= i < c_n_kernels (h_alloc h)) ->
      Forall2 (reqm h) (map reqs_kernel l) (map (kern c) l)).
    { induction l as [|i l IH]; intro H; cbn [map]; constructor; [|apply IH; intros; apply H; now right].
      specialize (H i (or_introl eq_refl)). pose proof H as H'. apply in_range_iff in H.
      assert (NK : (c_n_kernels (h_alloc h) >? 0) = true) by (rewrite Z.gtb_ltb; apply Z.ltb_lt; lia).
      unfold reqs_kernel, kern. apply fm_ok.
      assert (KA : forall (k : Z -> M Z), bind (kernel_at i) k h = k (xz (c_kernels c) i) h).
      { intro k. unfold kernel_at. rewrite bind_assoc. rewrite (bind_eq cfg _ _ (h_cfg h) h eq_refl).
        erewrite bind_eq; [reflexivity|]. rewrite (ua_ok 0); [reflexivity|].
        rewrite (de_ks _ _ KC), (g_ks _ KG). lia. }
      constructor; [|constructor; [|constructor; [|constructor]]].
      - rq; auto. intros; unfold acch; cbn [acc]; rewrite (k_live _ C), B, NK, H; reflexivity.
      - unfold reqm. rewrite KA. apply fm_ok. set (np := kernel_n_params _).
        assert (LE : np <= 4) by apply kernel_params_le_4.
        assert (Y : forall js, (forall j, In j js -> 0 <= j < 4) -> Forall2 (reqm h) (map (fun j => req true (FlKPar i j) 32) js)
                     (map (fun j => if_ true [IKPar i j]) js)).
        { induction js as [|j js IHj]; intro Hj; cbn [map]; constructor; [|apply IHj; intros; apply Hj; now right].
          apply (req_ok h true (FlKPar i j) (IKPar i j)); auto. specialize (Hj j (or_introl eq_refl)).
          apply in_range_iff in Hj. intros; unfold acch; cbn [acc]; rewrite (k_live _ C), B, NK, H, Hj; reflexivity. }
        apply Y. intros j Hj. apply in_zseq in Hj. lia.
      - unfold reqm. rewrite KA. apply (req_ok h _ (FlKFunc i) (IKFunc i)); auto.
        intros; unfold acch; cbn [acc]; rewrite (k_live _ C), NK, H; reflexivity. }
    apply X. intros i Hi. apply in_zseq in Hi. now rewrite <- (de_nk _ _ KC).
Qed.

Lemma free_ok h b : h_live h b = true -> free b h = Ret tt (mkH (h_cfg h) (h_alloc h) (h_mem h)
  (fun b' => if blk_eqb b b' then false else h_live h b') (h_dep h)).
Proof. intro E. unfold free. now rewrite E. Qed.

Lemma check_ok h : inv h -> iib h = true ->
  (miss h (required (h_cfg h)) <> 0 /\ check_inputs_initialized h = Ret (miss h (required (h_cfg h))) h) \/
  (miss h (required (h_cfg h)) = 0 /\ exists h', check_inputs_initialized h = Ret 0 h' /\ ready_of h h').
Proof.
  intros I B. pose proof (i_core _ _ I) as C. pose proof (cfg_dims _ _ (k_cfg _ C)) as KC.
  unfold check_inputs_initialized. rewrite (bind_eq cfg _ h (h_cfg h) h eq_refl).
  rewrite (bind_eq _ _ _ _ _ (first_ok h I B)). destruct (miss h (required (h_cfg h)) =? 0) eqn:E; cbn [negb].
  - right. split; [now apply Z.eqb_eq|].
    assert (L : forall b, h_live h b = match b with BG | BCoef | BOmega | BLtau => true | _ => c_n_kernels (h_alloc h) >? 0 end).
    { intro b. rewrite (k_live _ C), B. destruct b; reflexivity. }
    rewrite (bind_eq _ _ _ _ _ (free_ok _ BG (L BG))).
    erewrite bind_eq by (apply free_ok; cbn; apply (L BCoef)).
    erewrite bind_eq by (apply free_ok; cbn; apply (L BOmega)).
    erewrite bind_eq by (apply free_ok; cbn; apply (L BLtau)). cbn [h_cfg h_alloc h_mem h_live h_dep].
    rewrite (de_nk _ _ KC). unfold when. destruct (c_n_kernels (h_alloc h) >? 0) eqn:NK.
    + rewrite bind_assoc. erewrite bind_eq by (apply free_ok; cbn; apply (L BKAmp)).
      erewrite bind_eq by (apply free_ok; cbn; apply (L BKPar)). cbn [h_cfg h_alloc h_mem h_live h_dep].
      eexists. split; [reflexivity|]. unfold ready_of. cbn [h_cfg h_alloc h_mem h_live h_dep]. repeat split.
      intros []; reflexivity.
    + erewrite bind_eq by reflexivity.
      eexists. split; [reflexivity|]. unfold ready_of. cbn [h_cfg h_alloc h_mem h_live h_dep]. repeat split.
      intros []; try reflexivity; cbn; now rewrite L.
  - left. split; [now apply Z.eqb_neq|]. reflexivity.
Qed.

(** Required quantities and needed flags are the same thing. *)
Lemma required_needed h x : inv h -> In x (required (h_cfg h)) -> needed (h_alloc h) (fl x) = true.
Proof.
  intros I H. pose proof (i_core _ _ I) as C. pose proof (cfg_dims _ _ (k_cfg _ C)) as KC.
  pose proof (use_coef_eq _ _ I) as ES.
  assert (EO : forall k, k <> 0%N -> has_opt (h_cfg h) (bit k) = has_opt (h_alloc h) (bit k)) by (intros; now apply opt_eq).
  assert (IFI : forall (b : bool) (l : list item), In x (if_ b l) -> b = true /\ In x l) by (intros [] l Q; cbn in Q; auto; easy).
  rewrite required_eq in H by (now apply good_cfg). apply in_concat in H as (xs & H1 & H2).
  apply in_app_or in H1 as [H1|H1]; [|apply in_app_or in H1 as [H1|H1]].
  - unfold scal in H1. cbn [In] in H1.
    repeat match goal with H : _ \/ _ |- _ => destruct H as [<-|H] end; try easy;
      apply IFI in H2 as [HB [<-|[]]]; cbn [fl needed]; rewrite <- ?ES; auto;
      try (unfold OPT_PSA, OPT_OUTPUT_AT_LEVELS, OPT_OUTPUT_AT_TAUS, OPT_SOURCE_SOLAR, OPT_SOURCE_THERMAL in *; rewrite <- EO; [assumption|discriminate]).
    now rewrite <- (de_num _ _ KC).
  - apply in_concat in H1 as (ys & H1 & H3). apply in_map_iff in H1 as (i & <- & Hi). apply in_zseq in Hi.
    rewrite (de_nl _ _ KC) in Hi. apply in_range_iff in Hi.
    unfold layr in H3. cbn [In] in H3.
    repeat match goal with H : _ \/ _ |- _ => destruct H as [<-|H] end; try easy;
      apply IFI in H2 as [HB [<-|[]]]; cbn [fl needed]; rewrite <- ?ES, ?Hi, ?HB; reflexivity.
  - apply in_map_iff in H1 as (i & <- & Hi). apply in_zseq in Hi.
    rewrite (de_nk _ _ KC) in Hi. apply in_range_iff in Hi. unfold kern in H2. rewrite (de_ks _ _ KC) in H2.
    apply in_concat in H2 as (ys & H1 & H3). cbn [In] in H1.
    repeat match goal with H : _ \/ _ |- _ => destruct H as [<-|H] end; try easy.
    + apply IFI in H3 as [HB [<-|[]]]; cbn [fl needed]; now rewrite ?Hi.
    + apply in_concat in H3 as (zs & H1 & H3). apply in_map_iff in H1 as (j & <- & Hj). apply in_zseq in Hj.
      apply in_range_iff in Hj. apply IFI in H3 as [HB [<-|[]]]; cbn [fl needed]; now rewrite ?Hi, ?Hj.
    + apply IFI in H3 as [HB [<-|[]]]; cbn [fl needed]; now rewrite ?Hi, ?HB.
Qed.

Lemma needed_required h f : inv h -> needed (h_alloc h) f = true -> exists x, fl x = f /\ In x (required (h_cfg h)).
Proof.
  intros I H. pose proof (i_core _ _ I) as C. pose proof (cfg_dims _ _ (k_cfg _ C)) as KC.
  pose proof (use_coef_eq _ _ I) as ES.
  assert (EO : forall k, k <> 0%N -> has_opt (h_cfg h) (bit k) = has_opt (h_alloc h) (bit k)) by (intros; now apply opt_eq).
  rewrite required_eq by (now apply good_cfg).
  assert (SC : forall xs x, In xs (scal (h_cfg h)) -> In x xs -> fl x = f -> exists x, fl x = f /\ 
     In x (concat (scal (h_cfg h) ++ concat (map (layr (h_cfg h)) (zseq 0 (c_n_layers (h_cfg h)))) ++ map (kern (h_cfg h)) (zseq 0 (c_n_kernels (h_cfg h)))))).
  { intros xs x H1 H2 H3. exists x. split; auto. apply in_concat. exists xs. split; auto. apply in_or_app. now left. }
  assert (LY : forall i xs x, 0 <= i < c_n_layers (h_alloc h) -> In xs (layr (h_cfg h) i) -> In x xs -> fl x = f -> exists x, fl x = f /\ 
     In x (concat (scal (h_cfg h) ++ concat (map (layr (h_cfg h)) (zseq 0 (c_n_layers (h_cfg h)))) ++ map (kern (h_cfg h)) (zseq 0 (c_n_kernels (h_cfg h)))))).
  { intros i xs x Hi H1 H2 H3. exists x. split; auto. apply in_concat. exists xs. split; auto. apply in_or_app. right.
    apply in_or_app. left. apply in_concat. exists (layr (h_cfg h) i). split; auto. apply in_map_iff. exists i. split; auto.
    apply in_zseq. now rewrite (de_nl _ _ KC). }
  assert (KE : forall i x, 0 <= i < c_n_kernels (h_alloc h) -> In x (kern (h_cfg h) i) -> fl x = f -> exists x, fl x = f /\ 
     In x (concat (scal (h_cfg h) ++ concat (map (layr (h_cfg h)) (zseq 0 (c_n_layers (h_cfg h)))) ++ map (kern (h_cfg h)) (zseq 0 (c_n_kernels (h_cfg h)))))).
  { intros i x Hi H1 H3. exists x. split; auto. apply in_concat. exists (kern (h_cfg h) i). split; auto. apply in_or_app. right.
    apply in_or_app. right. apply in_map_iff. exists i. split; auto. apply in_zseq. now rewrite (de_nk _ _ KC). }
  unfold scal in SC. destruct f; try discriminate H; cbn [needed] in H;
    try (rewrite <- ES in H);
    try (unfold OPT_PSA, OPT_OUTPUT_AT_LEVELS, OPT_OUTPUT_AT_TAUS, OPT_SOURCE_SOLAR, OPT_SOURCE_THERMAL in H; rewrite <- EO in H by discriminate;
         fold OPT_PSA in H; fold OPT_OUTPUT_AT_LEVELS in H; fold OPT_OUTPUT_AT_TAUS in H; fold OPT_SOURCE_SOLAR in H; fold OPT_SOURCE_THERMAL in H);
    rewrite ?andb_true_iff, ?in_range_iff in H; try rewrite <- (de_num _ _ KC) in H.
  Ltac sc SC H x := apply (SC [x] x); [|now left|reflexivity]; cbn [In]; first [rewrite H; cbn [if_]; tauto|cbn [if_]; tauto].
  - sc SC H IDoub. - sc SC H IPade. - sc SC H ISos. - sc SC H IFourierTol. - sc SC H IPlanetR.
  - sc SC H ILevelsZ. - sc SC H IOutLevels. - sc SC H IOutTaus. - sc SC H IOutThetas.
  - sc SC H IFIsoTop. - sc SC H IFIsoBot. - sc SC H IF0. - sc SC H ITheta0. - sc SC H IPhi0.
  - sc SC H ILevelsB. - sc SC H ISurfaceB.
  - destruct H as [H Hi]. apply (LY i (if_ (has_slv (h_cfg h) SOLVERS_USE_COEF) [ICoef i]) (ICoef i)); auto; [|rewrite H; now left].
    right. now left.
  - apply (LY i [IOmega i] (IOmega i)); auto; [|now left]. right. right. now left.
  - apply (LY i [ILtau i] (ILtau i)); auto; [|now left]. right. right. right. now left.
  - apply (KE i (IKAmp i)); auto. apply in_concat. eexists. split; [now left|]. now left.
  - destruct H as [Hi Hj]. apply (KE i (IKPar i j)); auto. apply in_concat. eexists. split; [right; now left|].
    apply in_concat. exists [IKPar i j]. split; [|now left]. apply in_map_iff. exists j. split; [reflexivity|].
    apply in_zseq. now rewrite (de_ks _ _ KC).
  - destruct H as [Hi Hj]. apply (KE i (IKFunc i)); auto. apply in_concat. eexists. split; [right; right; now left|].
    rewrite (de_ks _ _ KC), Hj. now left.
Qed.

Lemma ready_inv h h' : inv h -> iib h = true -> miss h (required (h_cfg h)) = 0 -> ready_of h h' -> inv h' /\ iib h' = false.
Proof.
  intros I B M0 (E1 & E2 & E3 & E4 & E5). pose proof (i_core _ _ I) as C.
  assert (IB : iib h' = false) by (unfold iib; rewrite E4, upd_same; reflexivity).
  assert (OT : forall l, l <> InputsInit -> h_mem h' l = h_mem h l) by (intros l Hl; rewrite E4; apply upd_other; congruence).
  split; auto. constructor.
  - destruct C as [C1 C2 C3 C4 C5]. constructor; rewrite ?E1, ?E2; auto.
    + left. rewrite E4. apply upd_same.
    + intro b. rewrite E5, IB. destruct b; cbn; auto. now rewrite C4.
    + intros i Hi. rewrite OT by discriminate. now apply C5.
  - intros l v H. rewrite E2. rewrite E4 in H. unfold upd in H. destruct (loc_eq_dec InputsInit l) as [<-|].
    + injection H as <-. cbn. auto.
    + now apply (i_typed _ _ I).
  - intros l Hl. rewrite E2 in Hl. destruct (loc_eq_dec l InputsInit) as [->|]; [rewrite E4, upd_same; discriminate|].
    rewrite OT by auto. now apply (i_always _ _ I).
  - intros l f Hf S A. rewrite E2 in *. unfold isset in S. rewrite OT in S.
    + destruct (loc_eq_dec l InputsInit) as [->|]; [rewrite E4, upd_same; discriminate|].
      rewrite OT by auto. now apply (i_flag _ _ I l f).
    + intros ->. apply flag_of_isflag in Hf. discriminate.
  - intros _ f Hf. rewrite E2 in Hf. destruct (needed_required h f I Hf) as (x & <- & Hx).
    rewrite miss_zero in M0. specialize (M0 x Hx). apply fset_isset in M0; auto.
    + unfold isset in *. rewrite OT; auto. destruct x; discriminate.
    + now apply needed_isflag in Hf.
Qed.
End Gate.
