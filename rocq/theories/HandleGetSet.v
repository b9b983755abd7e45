(** After an accepted setter the matching getter answers with the stored value. *)
From Coq Require Import ZArith NArith List Bool Lia SpecFloat.
From Verif Require Import Base OptionsModel OptionsSpec OptionsProofs Dbl HandleModel HandleTable HandleWp
  HandleSetters HandleInv HandleSteps HandleGetters HandleSpec HandleFrame HandleGate HandleSolve HandleHist HandleCalls
  HandleHistory.
Import ListNotations.
Open Scope Z_scope.

Lemma cell_after h s l v : In (l, v) (writes h s) -> (forall u, In (l, u) (writes h s) -> u = v) ->
  cellv (effect h s) l = v.
Proof. intros H1 H2. unfold cellv, effect. rewrite mem_post. now rewrite (apw_val _ h l v H1 H2). Qed.

Lemma iib_effect (cosd : dbl -> dbl) h s : core h -> simple s = true -> accept (h_cfg h) s = true -> iib (effect h s) = iib h.
Proof.
  intros C S A. unfold iib, effect. rewrite mem_post.
  change (iib (apw (writes h s) h) = iib h). apply iib_apw. exact (wk_ii _ _ _ (wok_simple cosd h s C S A)).
Qed.

Lemma flagged_after (cosd : dbl -> dbl) h s f : core h -> simple s = true -> accept (h_cfg h) s = true -> isflag f = true ->
  (iib h = true -> In (f, VZ 1) (writes h s)) -> flagged (effect h s) f = true.
Proof.
  intros C S A F H. unfold flagged. rewrite (iib_effect cosd) by auto. destruct (iib h); [|reflexivity]. cbn [negb orb].
  unfold effect. rewrite mem_post. rewrite (apw_val _ h f (VZ 1)); auto.
  intros u Hu. exact (wk_flag1 _ _ _ (wok_simple cosd h s C S A) _ _ Hu F).
Qed.

Lemma away_omega x : away_from_one x = omega_adj x.
Proof. reflexivity. Qed.

Lemma xd1 x i : xd [x] (i - i) = x.
Proof. now rewrite Z.sub_diag. Qed.

Lemma cell_after_app h s l v w1 w2 : writes h s = w1 ++ w2 -> In (l, v) w2 ->
  (forall u, In (l, u) w2 -> u = v) -> cellv (effect h s) l = v.
Proof.
  intros E H1 H2. unfold cellv, effect. rewrite mem_post, E, apw_app. now rewrite (apw_val w2 (apw w1 h) l v H1 H2).
Qed.

Lemma in_coefl' h xs ds g i d k m : In i xs -> In d ds -> 0 <= k < c_n_elem (h_cfg h) -> 0 <= m < ncl h i ->
  In (Coef0L i d k m, VD (g i d k m)) (coefl h xs ds g).
Proof. intros. apply in_coefl. exists i, d, k, m. auto 10. Qed.

Section GetSet.
Variables cosd acosd : dbl -> dbl.
Notation inv := (inv cosd).
Notation exec := (exec cosd acosd).

Definition nco_of (h : handle) (i : Z) : Z := ncl h i.

Ltac mem := first
  [ now left | right; now left | right; right; now left | right; right; right; now left
  | apply in_row; eexists; rewrite in_zseq; split; [|split; reflexivity]; lia
  | apply in_grid; eexists; eexists; rewrite !in_zseq; split; [|split; [|split; reflexivity]]; lia
  | apply in_coefl; do 4 eexists; rewrite !in_zseq; repeat match goal with |- _ /\ _ => split end; try reflexivity; lia
  | apply in_rowf; eexists; rewrite in_zseq; split; [|left; split; reflexivity]; lia
  | apply in_rowf; eexists; rewrite in_zseq; split; [|right; split; [|split; reflexivity]]; auto; lia
  | apply in_flat_map; eexists; rewrite in_zseq; split; [|now left]; lia ].
Ltac mema := first [mem | apply in_or_app; left; mem | apply in_or_app; right; mem].
Ltac uniq := let u := fresh "u" in let Hu := fresh "Hu" in intros u Hu; inw; try discriminate; try congruence;
   repeat match goal with H : _ = _ :> loc |- _ => injection H; clear H; intros; subst end; auto.

Lemma get_set_simple h s g r : inv h -> sized h s -> simple s = true -> accept (h_cfg h) s = true ->
  stored cosd acosd (h_cfg h) s g = Some r -> index_ok (h_cfg h) (ncl (effect h s)) g -> offered (h_cfg h) g = true ->
  gaccept (effect h s) g = true /\ gres acosd (effect h s) g = r.
Proof.
  intros I SZ S A ST IX OF. pose proof (i_core _ _ I) as C.
  assert (FL : forall f, isflag f = true -> (iib h = true -> In (f, VZ 1) (writes h s)) -> flagged (effect h s) f = true)
    by (intros; eapply flagged_after; eauto).
  assert (EC : h_cfg (effect h s) = h_cfg h) by (unfold effect, post; destruct (dbits (h_cfg h) s) as [[[? ?] ?]|]; reflexivity).
  assert (NC : forall i, ncl (effect h s) i = ncl h i).
  { intro i. unfold ncl, effect. rewrite mem_post.
    destruct (apw_dec (writes h s) h (NCoefLayer i)) as [[-> _]|(v & Hv & _)]; auto.
    exfalso. destruct s; try discriminate S; cbn [writes] in Hv; inw; try discriminate. }
  assert (AR : forall i, 0 <= i < c_n_kernels (h_cfg h) ->
    kernel_arity (kernel_type (h_cfg h) i) = kernel_n_params (xz (c_kernels (h_cfg h)) i)).
  { intros i Hi. symmetry. apply arity_ok. eapply good_cfg; eauto. }
  destruct s; try discriminate S; destruct g; try discriminate ST; cbn [stored] in ST;
    try match type of ST with (if ?b then _ else _) = _ => destruct b eqn:EQ; [|discriminate ST] end;
    injection ST as <-;
    repeat match goal with H : _ && _ = true |- _ => apply andb_true_iff in H as [? ?] end;
    repeat match goal with H : (_ =? _) = true |- _ => apply Z.eqb_eq in H; subst end;
    cbn [index_ok offered] in IX, OF; unfold within in IX; rewrite ?NC in IX;
    cbn [accept andl fold_right] in A; rewrite ?andb_true_r in A; 
    repeat match goal with H : _ && _ = true |- _ => apply andb_true_iff in H as [? ?] end;
    repeat match goal with H : in_range _ _ = true |- _ => rewrite in_range_iff in H end;
    try (rewrite AR in IX by lia).
  all: cbn [gaccept andl fold_right]; rewrite ?EC, ?NC, ?OF, ?andb_true_r; cbn [andb].
  all: split;
   [ rewrite ?andb_true_iff, ?in_range_iff;
     repeat match goal with |- _ /\ _ => split end; try assumption; try (split; lia); try lia;
     try (apply FL; [reflexivity|intro B; cbn [writes]; rewrite ?B; mema])
   | unfold gres; rewrite EC; cbn [gcfg gcells app map gpost] ].
  all: rewrite ?upto_zseq, ?map_map.
  all: try (apply map_ext_in; intros k Hk; apply in_zseq in Hk).
  all: rewrite ?away_omega.
  all: repeat match goal with |- context [cellv (effect ?hh ?s) ?l] =>
     first [ erewrite (cell_after hh s l); [|cbn [writes]; mema|cbn [writes]; solve [uniq]] ] end.
  all: rewrite ?xd1; try (rewrite ?Z.sub_0_r; reflexivity).
  - apply (f_equal (fun v => [v])). apply cell_after; cbn [writes]; [|uniq].
    apply (in_coefl' h _ _ (fun _ _ k l => xd (xl x k) l)); rewrite ?in_zseq; lia.
  - apply (f_equal (fun v => [v])). apply cell_after; cbn [writes]; [|uniq; now rewrite Z.sub_0_r].
    replace (VD (at3 x i j k)) with (VD (xd (xl (xl x (i - 0)) j) k)) by now rewrite Z.sub_0_r.
    apply (in_coefl' h _ _ (fun i _ k l => xd (xl (xl x (i - 0)) k) l)); rewrite ?in_zseq; lia.
  - apply (f_equal (fun v => [v])). apply cell_after; cbn [writes]; [|uniq; now rewrite Z.sub_0_r].
    replace (VD (at3 x d j k)) with (VD (xd (xl (xl x (d - 0)) j) k)) by now rewrite Z.sub_0_r.
    apply (in_coefl' h _ _ (fun _ j k l => xd (xl (xl x (j - 0)) k) l)); rewrite ?in_zseq; lia.
  - apply (f_equal (fun v => [v])). apply cell_after; cbn [writes]; [|uniq; now rewrite !Z.sub_0_r].
    replace (VD (at4 x i d j k)) with (VD (xd (xl (xl (xl x (i - 0)) (d - 0)) j) k)) by now rewrite !Z.sub_0_r.
    apply (in_coefl' h _ _ (fun i j k l => xd (xl (xl (xl x (i - 0)) (j - 0)) k) l)); rewrite ?in_zseq; lia.
  - apply (f_equal (fun v => [v])). eapply cell_after_app; [reflexivity| |].
    + apply in_row. exists i0. rewrite in_zseq, xd1. repeat split; lia.
    + uniq. now rewrite xd1.
  - apply (f_equal (fun v => [v])). eapply cell_after_app; [reflexivity| |].
    + apply in_row. exists i. rewrite in_zseq, Z.sub_0_r. repeat split; lia.
    + uniq. now rewrite Z.sub_0_r.
Qed.

Lemma isset_flagged h f : isset h f -> flagged h f = true.
Proof. intro F. unfold flagged. rewrite F. apply orb_true_r. Qed.

Lemma ready_flagged h f : (iib h = true -> isset h f) -> flagged h f = true.
Proof. intro H. unfold flagged. destruct (iib h); [rewrite H; auto|reflexivity]. Qed.

Lemma setter_cfg h s v h' : kind_of s = Setter -> exec s h = Ret v h' -> h_cfg h' = h_cfg h.
Proof. intros K E. pose proof (keeps_setter cosd acosd s (or_introl K) h) as P. rewrite E in P. tauto. Qed.

Ltac keepif ST := repeat match type of ST with (if ?b then _ else _) = _ => destruct b eqn:?; [|discriminate ST] end.

Lemma index_safe h g nco : inv h -> is_getter g = true -> g <> GetQx -> index_ok (h_cfg h) nco g -> gsafe h g.
Proof.
  intros I G NQ IX. destruct g; try exact Logic.I; try discriminate G; cbn [gsafe index_ok] in *; unfold within in *;
    try (intros _; lia); try lia; try congruence.
  intros _. destruct IX as [X1 X2]. split; [lia|].
  rewrite <- arity_ok in X2 by (eapply good_cfg; eauto using i_core).
  pose proof (kernel_params_le_4 (kernel_type (h_cfg h) i)). lia.
Qed.

Lemma stored_getter c s g r : stored cosd acosd c s g = Some r -> is_getter g = true /\ kind_of g = Getter /\ g <> GetQx.
Proof. intro ST. destruct s, g; try discriminate ST; split; try split; try reflexivity; discriminate. Qed.

(** The getter of the value an accepted setter stored accepts, and answers it. *)
Lemma get_after_set h s v h' g r : inv h -> sized h s -> exec s h = Ret v h' ->
  stored cosd acosd (h_cfg h) s g = Some r -> offered (h_cfg h) g = true -> index_ok (h_cfg h) (ncl h') g ->
  exec g h' = Ret r h'.
Proof.
  intros I SZ E ST OF IX.
  assert (K : kind_of s = Setter) by (destruct s; try reflexivity; discriminate ST).
  assert (I' : inv h').
  { pose proof (setter_wp cosd acosd s h K I SZ) as W. unfold wp in W. now rewrite E in W. }
  pose proof (setter_cfg _ _ _ _ K E) as EC.
  pose proof (proj1 (stored_getter _ _ _ _ ST)) as G.
  assert (GO : gaccept h' g = true /\ gres acosd h' g = r /\ (gaccept h' g = true -> gdef_ok h' g)).
  { destruct (simple s) eqn:S.
    - pose proof (simple_R cosd acosd h s (i_core _ _ I) SZ S) as R. unfold HandleTable.R in R.
      destruct (accept (h_cfg h) s) eqn:A; [|destruct R as (e & R); rewrite E in R; discriminate R].
      rewrite E in R. injection R as -> ->.
      destruct (get_set_simple h s g r I SZ S A ST IX OF) as [G1 G2]. split; [exact G1|]. split; [exact G2|]. intros _.
      destruct s, g; try exact Logic.I; try discriminate S; try discriminate ST. cbn [gdef_ok].
      unfold effect. rewrite mem_post. rewrite (apw_val _ h Lambda (VD x)); cbn [writes]; [discriminate|now left|].
      intros u [U|[U|[]]]; [congruence|discriminate U].
    - destruct s; try discriminate K; try discriminate S; destruct g; try discriminate ST; cbn [stored] in ST;
        keepif ST; injection ST as <-; cbn [index_ok offered] in IX, OF; unfold within in IX.
      + pose proof (out_taus_wp cosd acosd h x I SZ) as W. unfold wp in W. rewrite E in W.
        destruct W as (-> & _ & F & O & V). cbn [gaccept andl fold_right gdef_ok]. rewrite EC, O, (isset_flagged _ _ F).
        split; [reflexivity|]. split; [|auto]. unfold gres. rewrite EC. cbn [gcfg gcells gpost app].
        rewrite upto_zseq, map_map. apply map_ext_in. intros k Hk. apply in_zseq in Hk.
        unfold cellv. now rewrite V.
      + pose proof (out_thetas_wp cosd acosd h x I SZ) as W. unfold wp in W. rewrite E in W.
        destruct W as (-> & _ & F & O & V). cbn [gaccept andl fold_right gdef_ok]. rewrite EC, OF, (isset_flagged _ _ F).
        split; [reflexivity|]. split; [|auto]. unfold gres. rewrite EC. cbn [gcfg gcells gpost app].
        rewrite upto_zseq, map_map. apply map_ext_in. intros k Hk. apply in_zseq in Hk.
        unfold cellv. now rewrite V.
      + pose proof (theta_0_wp cosd acosd h x I) as W. unfold wp in W. rewrite E in W.
        destruct W as (-> & _ & F & O & V). cbn [gaccept andl fold_right gdef_ok]. rewrite EC, OF, (isset_flagged _ _ F).
        split; [reflexivity|]. split; [|auto]. unfold gres. rewrite EC. cbn [gcfg gcells gpost app map].
        unfold cellv. now rewrite V.
      + apply Z.eqb_eq in Heqb as <-.
        pose proof (coef_wp cosd acosd (SetCoef1 i n x) h eq_refl I SZ) as W. unfold wp in W. rewrite E in W.
        destruct W as (-> & _ & O & _ & V). destruct (V i IX (Z.eqb_refl i)) as [(V1 & V2 & V3 & _) V4].
        cbn [gaccept andl fold_right gdef_ok]. rewrite EC, (ready_flagged _ _ V3).
        split; [|split; [|auto]].
        * rewrite O. apply andb_true_iff. split; [reflexivity|]. rewrite andb_true_r. apply in_range_iff. lia.
        * unfold gres. cbn [gcfg gcells gpost app map]. unfold cellv. now rewrite V1.
      + apply Z.eqb_eq in Heqb as <-.
        pose proof (coef_wp cosd acosd (SetCoef1 i n x) h eq_refl I SZ) as W. unfold wp in W. rewrite E in W.
        destruct IX as (IX1 & IX2 & IX3).
        destruct W as (-> & _ & O & _ & V). destruct (V i IX1 (Z.eqb_refl i)) as [(V1 & V2 & V3 & _) V4].
        assert (NC : ncl h' i = ncof (h_cfg h) (SetCoef1 i n x) i) by (unfold ncl; now rewrite V1).
        rewrite EC in V2. rewrite NC in IX3. specialize (V2 j k IX2 IX3).
        cbn [gaccept andl fold_right gdef_ok]. rewrite EC, (ready_flagged _ _ V3), NC.
        split; [|split; [|intros _; rewrite V2; discriminate]].
        * rewrite O. rewrite ?andb_true_r, ?andb_true_iff, !in_range_iff. repeat split; try reflexivity; lia.
        * unfold gres. cbn [gcfg gcells gpost app map]. unfold cellv. now rewrite V2.
      + pose proof (coef_wp cosd acosd (SetCoefn n x) h eq_refl I SZ) as W. unfold wp in W. rewrite E in W.
        destruct W as (-> & _ & O & _ & V). destruct (V i IX eq_refl) as [(V1 & V2 & V3 & _) V4].
        cbn [gaccept andl fold_right gdef_ok]. rewrite EC, (ready_flagged _ _ V3).
        split; [|split; [|auto]].
        * rewrite O. apply andb_true_iff. split; [reflexivity|]. rewrite andb_true_r. apply in_range_iff. lia.
        * unfold gres. cbn [gcfg gcells gpost app map]. unfold cellv. rewrite V1. now destruct n.
      + pose proof (coef_wp cosd acosd (SetCoefn n x) h eq_refl I SZ) as W. unfold wp in W. rewrite E in W.
        destruct IX as (IX1 & IX2 & IX3).
        destruct W as (-> & _ & O & _ & V). destruct (V i IX1 eq_refl) as [(V1 & V2 & V3 & _) V4].
        assert (NC : ncl h' i = ncof (h_cfg h) (SetCoefn n x) i) by (unfold ncl; now rewrite V1).
        rewrite EC in V2. rewrite NC in IX3. specialize (V2 j k IX2 IX3).
        cbn [gaccept andl fold_right gdef_ok]. rewrite EC, (ready_flagged _ _ V3), NC.
        split; [|split; [|intros _; rewrite V2; discriminate]].
        * rewrite O. rewrite ?andb_true_r, ?andb_true_iff, !in_range_iff. repeat split; try reflexivity; lia.
        * unfold gres. cbn [gcfg gcells gpost app map]. unfold cellv. now rewrite V2. }
  destruct GO as (GA & GR & GD).
  assert (GS : gsafe h' g) by (eapply index_safe; [exact I'|exact G|exact (proj2 (proj2 (stored_getter _ _ _ _ ST)))|rewrite EC; exact IX]).
  pose proof (getter_R cosd acosd h' g I' G GS GD) as R. unfold HandleTable.R in R. rewrite GA, GR in R. exact R.
Qed.

(** ** Running a solver keeps every answer *)
Lemma bind_inv {A B} (m : M A) (k : A -> M B) h b h' : bind m k h = Ret b h' ->
  exists a h1, m h = Ret a h1 /\ k a h1 = Ret b h'.
Proof. unfold bind. destruct (m h) as [a h1|e h1|]; [eauto|discriminate|discriminate]. Qed.

Lemma get_coef_def h i j k r h' : exec (GetCoef i j k) h = Ret r h' -> h_mem h (Coef0 i j k) <> None.
Proof.
  intro E. pose proof (getter_pure cosd acosd (GetCoef i j k) h eq_refl) as P. rewrite E in P.
  cbn [HandleModel.exec] in E. unfold get_coef in E.
  do 7 (apply bind_inv in E as (? & ? & _ & E)).
  unfold one in E. apply bind_inv in E as (? & ? & E1 & E). unfold rd in E1.
  destruct (acc _ _ _); [|discriminate E1].
  destruct (h_mem x12 (Coef0 i j k)) eqn:V; [|discriminate E1]. injection E1 as <- <-. injection E as <- <-. congruence.
Qed.

Lemma get_lambda_def h r h' : exec GetLambda h = Ret r h' -> h_mem h Lambda <> None.
Proof.
  intro E. pose proof (getter_pure cosd acosd GetLambda h eq_refl) as P. rewrite E in P.
  cbn [HandleModel.exec] in E. unfold get_lambda in E.
  do 2 (apply bind_inv in E as (? & ? & _ & E)).
  unfold one in E. apply bind_inv in E as (? & ? & E1 & E). unfold rd in E1.
  destruct (acc _ _ _); [|discriminate E1].
  destruct (h_mem x2 Lambda) eqn:V; [|discriminate E1]. injection E1 as <- <-. injection E as <- <-. congruence.
Qed.

Lemma answer_def h g r h' : g <> GetQx -> exec g h = Ret r h' -> gdef_ok h g.
Proof.
  intros NQ E. destruct g; try exact Logic.I; try congruence; eauto using get_coef_def, get_lambda_def.
  - exact (get_lambda_def _ _ _ E).
  - exact (get_coef_def _ _ _ _ _ _ E).
Qed.

Lemma answer_accepts h g r : inv h -> is_getter g = true -> g <> GetQx -> gsafe h g -> exec g h = Ret r h ->
  gaccept h g = true /\ gres acosd h g = r.
Proof.
  intros I G NQ GS E. pose proof (getter_R cosd acosd h g I G GS (fun _ => answer_def _ _ _ _ NQ E)) as R.
  unfold HandleTable.R in R.
  destruct (gaccept h g); [rewrite E in R; injection R as ->; auto|destruct R as (e & R); rewrite E in R; discriminate R].
Qed.

Lemma flagged_up h h' f : isflag f = true -> (iib h = false -> iib h' = false) -> h_mem h' f = h_mem h f ->
  flagged h f = true -> flagged h' f = true.
Proof.
  intros F B M H. unfold flagged in *. rewrite M. destruct (iib h); [|now rewrite B].
  cbn in H. rewrite H. apply orb_true_r.
Qed.

Lemma solve_answer h h' g r : SR cosd h h' -> inv h -> is_getter g = true -> g <> GetQx ->
  gsafe h g -> gsafe h' g -> exec g h = Ret r h -> exec g h' = Ret r h'.
Proof.
  intros (I' & EC & EA & B & M) I G NQ GS GS' E.
  pose proof (answer_def _ _ _ _ NQ E) as GD. destruct (answer_accepts _ _ _ I G NQ GS E) as [GA GR].
  assert (MF : forall f, isflag f = true -> h_mem h' f = h_mem h f).
  { intros f F. apply M; try (intros ->; discriminate F). right. intros i ->. discriminate F. }
  assert (NC : forall i, ncl h' i = ncl h i).
  { intro i. unfold ncl. rewrite M; auto; try discriminate. right. discriminate. }
  assert (MC : forall l, In l (gcells (h_cfg h) g) -> h_mem h' l = h_mem h l).
  { intros l L. destruct (has_opt (h_alloc h) OPT_OUTPUT_AT_LEVELS) eqn:O.
    - apply M; auto; intros ->; destruct g; try discriminate G; cbn [gcells] in L;
        repeat match goal with H : In _ (map _ _) |- _ => apply in_map_iff in H as (? & ? & _); discriminate
               | H : In _ (_ :: _) |- _ => destruct H as [H|H]; [discriminate|] | H : In _ [] |- _ => destruct H end.
    - apply M; [| |right; intro]; intros ->; destruct g; try discriminate G; cbn [gcells] in L;
        try solve [repeat match goal with H : In _ (map _ _) |- _ => apply in_map_iff in H as (? & ? & _); discriminate
               | H : In _ (_ :: _) |- _ => destruct H as [H|H]; [discriminate|] | H : In _ [] |- _ => destruct H end].
      cbn [gaccept andl fold_right] in GA. apply andb_true_iff in GA as [GA _].
      unfold OPT_OUTPUT_AT_LEVELS in *. rewrite (opt_eq _ _ 7 (cfg_dims _ _ (k_cfg _ (i_core _ _ I)))) in GA; [congruence|discriminate]. }
  assert (GA' : gaccept h' g = true).
  { destruct g; try discriminate G; cbn [gaccept andl fold_right] in *; rewrite ?EC, ?NC; rewrite ?andb_true_r in *;
      repeat match goal with H : _ && _ = true |- _ => apply andb_true_iff in H as [? ?] end;
      rewrite ?andb_true_iff; repeat match goal with |- _ /\ _ => split end; auto;
      match goal with H : flagged h ?f = true |- flagged h' ?f = true => apply (flagged_up h); auto; apply MF; reflexivity end. }
  assert (GR' : gres acosd h' g = r).
  { rewrite <- GR. unfold gres. rewrite EC. f_equal. apply map_ext_in. intros l L. unfold cellv. now rewrite MC. }
  assert (GD' : gdef_ok h' g).
  { destruct g; try exact Logic.I; try congruence; cbn [gdef_ok] in *; rewrite MC; auto; now left. }
  pose proof (getter_R cosd acosd h' g I' G GS' (fun _ => GD')) as R. unfold HandleTable.R in R. now rewrite GA', GR' in R.
Qed.

(** A call that does not concern the quantity behind [g] keeps its answer. *)
Lemma step_answer h o ok h' g r nco : inv h -> sized h o -> steps cosd acosd h o ok h' -> is_getter g = true ->
  kind_of g = Getter -> g <> GetQx -> index_ok (h_cfg h) nco g -> broke o ok = false ->
  (forall x, about g = Some x -> changes o x = false) -> exec g h = Ret r h -> exec g h' = Ret r h'.
Proof.
  intros I SZ ST G K NQ IX NB C E. pose proof (step_inv cosd acosd h o ok h' I SZ ST) as I'.
  pose proof (step_cfg cosd acosd h o ok h' I ST NB) as EC.
  assert (GS : gsafe h g) by (eapply index_safe; eauto).
  assert (GS' : gsafe h' g) by (eapply index_safe; [exact I'|exact G|exact NQ|rewrite EC; exact IX]).
  assert (FR : kind_of o = Setter \/ kind_of o = Clear -> exec g h' = Ret r h').
  { intro KO. assert (A : answer (exec g h') = answer (exec g h)).
    { eapply frame; eauto. unfold HandleHist.steps in ST. destruct ok; auto. }
    rewrite E in A. pose proof (getter_pure cosd acosd g h' K) as P.
    destruct (exec g h'); try discriminate A. injection A as ->. now subst. }
  unfold HandleHist.steps in ST. destruct (kind_of o) eqn:KO; auto.
  - pose proof (getter_pure cosd acosd o h KO) as P. destruct ok, ST as (v & E1); rewrite E1 in P; now subst.
  - pose proof (solve_SR cosd acosd o h KO I) as P. unfold tr_SR in P.
    apply (solve_answer h h' g r); auto. destruct ok, ST as (v & E1); rewrite E1 in P; exact P.
  - destruct o; try discriminate KO. cbn in NB. destruct ok; [|discriminate]. destruct ST as (v & E1).
    destruct (solve2_part cosd acosd h fx I) as [E0|[E0|(h2 & S & _ & [[E0 _]|[E0 I2]])]];
      rewrite E1 in E0; try discriminate E0. injection E0 as -> ->. apply (solve_answer h h2 g r); auto.
Qed.

Lemma hist_answer h t h' g r nco : inv h -> hist cosd acosd h t h' -> is_getter g = true ->
  kind_of g = Getter -> g <> GetQx -> index_ok (h_cfg h) nco g -> unbroken t ->
  (forall x o ok, about g = Some x -> In (o, ok) t -> changes o x = false) -> exec g h = Ret r h -> exec g h' = Ret r h'.
Proof.
  intros I H G K NQ IX U C E. induction H as [|t h1 o ok h2 H IH SZ ST]; auto.
  assert (U1 : unbroken t) by (intros fx Hx; apply (U fx); now right).
  apply (step_answer h1 o ok h2 g r nco); auto.
  - eapply hist_inv; eauto.
  - now rewrite (hist_cfg cosd acosd h t h1 I H U1).
  - destruct o; try reflexivity. cbn. destruct ok; auto. elim (U fx). now left.
  - intros x Ax. apply (C x o ok); auto. now left.
  - apply IH; auto. intros x o' ok' A Ho. apply (C x o' ok' A). now right.
Qed.
End GetSet.
