(** Every API call preserves the invariant and its result has a known shape. *)
From Coq Require Import ZArith NArith List Bool Lia SpecFloat.
From Verif Require Import Base OptionsModel OptionsSpec OptionsProofs Dbl HandleModel HandleTable HandleWp HandleSetters HandleInv.
Import ListNotations.
Open Scope Z_scope.

Ltac inw := repeat match goal with
  | H : In _ (_ ++ _) |- _ => apply in_app_or in H as [H|H]
  | H : In (_, _) (row _ _ _) |- _ => apply in_row in H as (? & ? & ? & ?); subst
  | H : In (_, _) (grid _ _ _ _) |- _ => apply in_grid in H as (? & ? & ? & ? & ? & ?); subst
  | H : In (_, _) (rowf _ _ _ _ _) |- _ =>
      apply in_rowf in H as (? & ? & [[? ?]|(? & ? & ?)]); subst
  | H : In (_, _) (coefl _ _ _ _) |- _ =>
      apply in_coefl in H as (? & ? & ? & ? & ? & ? & ? & ? & ? & ?); subst
  | H : In (_, _) (eflag _ _) |- _ => apply in_eflag in H as (? & ? & ?); subst
  | H : In _ (_ :: _) |- _ => destruct H as [H|H]; [try (injection H as ? ?; subst)|]
  | H : In _ [] |- _ => destruct H
  | H : In _ (flat_map _ _) |- _ => apply in_flat_map in H as (? & ? & H)
  | H : In _ (zseq _ _) |- _ => apply in_zseq in H
  end.

Ltac bands := repeat match goal with
  | H : _ && _ = true |- _ => apply andb_true_iff in H as [? ?]
  | H : negb _ = true |- _ => apply negb_true_iff in H
  | H : _ || _ = false |- _ => apply orb_false_iff in H as [? ?]
  | H : in_range _ _ = true |- _ => rewrite in_range_iff in H
  | H : forallb _ _ = true |- _ => rewrite forallb_forall in H
  end.

Section Steps.
Variables cosd acosd : dbl -> dbl.
Notation inv := (inv cosd).
Notation wok := (wok cosd).
Notation okv := (okv cosd).
Notation exec := (exec cosd acosd).

Lemma omega_adj_in d : omega_in d = true -> omega_in (omega_adj d) = true.
Proof.
  intro H. unfold omega_adj, singularity_adjust_down.
  destruct (dlt (dsub d_one d) d_1em5); [vm_compute; reflexivity|exact H].
Qed.

(** membership, for the goal side *)
Lemma in_row' xs f g i : In i xs -> exists u, In (f i, u) (row xs f g).
Proof. intro. exists (VD (g i)). apply in_row. eauto. Qed.

Lemma wok_simple h o : core h -> simple o = true -> accept (h_cfg h) o = true -> wok h (writes h o).
Proof.
  intros C S A. pose proof (cfg_dims _ _ (k_cfg _ C)) as KC. pose proof (k_good _ C) as KG.
  pose proof (de_nl _ _ KC). pose proof (de_nq _ _ KC). pose proof (de_nk _ _ KC).
  pose proof (de_nu _ _ KC).
  destruct o; try discriminate S; cbn [accept andl fold_right] in A; bands; cbn [writes];
    try (unfold has_slv, SOLVERS_USE_G, tst in *; rewrite N.land_0_r in *; discriminate);
    constructor;
    try (intros l v Hl; inw; cbn [HandleInv.okv isD isZ]; unfold nonneg, posi; auto;
         try discriminate; try reflexivity; lia);
    try (intros f v l Hf E A'; inw; destruct l; cbn in E; try discriminate E;
         try (match type of E with (if ?b then _ else _) = _ => destruct b; discriminate E end); left; eexists;
         first [now left|now right; left|now right; right; left|now right; right; right; left]).
  all: try (intros l v Hl Fl; inw; try discriminate Fl; reflexivity).
  all: try solve [intros l v Hl; inw; discriminate].
  all: try solve [intros f v l Hf E A'; inw; destruct l; cbn in E; try discriminate E;
      try (match type of E with (if ?b then _ else _) = _ => destruct b; discriminate E end); try (injection E as E; subst);
      left; cbn in A'; bands; eexists; try (apply in_or_app; left);
      first [apply in_row; eexists; split; [apply in_zseq|split; reflexivity]; lia
            |apply in_rowf; eexists; split; [apply in_zseq|left; split; reflexivity]; lia] ].
  - (* out_levels *) intros l v Hl. inw; cbn; auto. intros _. rename x0 into i.
    assert (L : forall k : nat, Z.of_nat k < c_n_ulevels (h_cfg h) ->
              0 <= xz x (Z.of_nat k) <= c_n_layers (h_cfg h)).
    { induction k as [|k IH]; intro Hk; [cbn in *; lia|].
      specialize (IH ltac:(lia)).
      match goal with H : forall x0, In x0 (zseq 1 _) -> _ |- _ =>
        specialize (H (Z.of_nat (Datatypes.S k)) ltac:(apply in_zseq; lia)) end.
      bands. replace (Z.of_nat (Datatypes.S k) - 1) with (Z.of_nat k) in * by lia. lia. }
    specialize (L (Z.to_nat i) ltac:(lia)). rewrite Z2Nat.id in L by lia. lia.
  - intros f v l Hf E A'. inw; destruct l; cbn in E; try discriminate E;
      try (match type of E with (if ?b then _ else _) = _ => destruct b; discriminate E end). left. cbn in A'. bands. eexists.
    apply in_or_app. left. apply in_flat_map. exists i. split; [apply in_zseq; lia|now left].
  - intros l v Hl. inw; cbn; auto. unfold nonneg.
    match goal with H : forall x, In x _ -> _ |- _ => specialize (H x0 ltac:(apply in_zseq; lia)) end. now bands.
  - intros l v Hl. inw; cbn; auto; [|apply omega_adj_in];
    match goal with H : forall x, In x _ -> _ |- _ => apply H; apply in_zseq; lia end.
  - intros l v Hl. inw; cbn; auto; [|apply omega_adj_in];
    match goal with H : forall x, In x _ -> _ |- _ => apply H; apply in_zseq; lia end.
  - intros l v Hl. inw; cbn; auto. unfold posi.
    match goal with H : forall x, In x _ -> _ |- _ => specialize (H x0 ltac:(apply in_zseq; lia)) end. now bands.
  - intros l v Hl. inw; cbn; auto. unfold posi.
    match goal with H : forall x, In x _ -> _ |- _ => specialize (H x0 ltac:(apply in_zseq; lia)) end. now bands.
  - intros l v Hl. inw; cbn; auto.
    match goal with A1 : dlt x d_zero = false, A2 : dgt x d_one = false |- _ => now rewrite A1, A2 end.
  - intros f v l Hf E A'. inw; destruct l; cbn in E; try discriminate E;
      try (match type of E with (if ?b then _ else _) = _ => destruct b; discriminate E end).
    injection E as ->. left. eexists. now left.
  - intros f v l Hf E A'. inw; destruct l; cbn in E; try discriminate E;
      try (match type of E with (if ?b then _ else _) = _ => destruct b; discriminate E end).
    injection E as -> ->. left. eexists. now left.
  - intros f0 v l Hf E A'. inw; destruct l; cbn in E; try discriminate E;
      try (match type of E with (if ?b then _ else _) = _ => destruct b; discriminate E end).
    injection E as ->. left. eexists. now left.
Qed.

(* ------------------------------------------------------------------------- *)
(** * Tools for the setters that can fail half way                            *)

Definition keepst (h0 h : handle) : Prop :=
  h_cfg h = h_cfg h0 /\ h_alloc h = h_alloc h0 /\ h_live h = h_live h0.
Lemma keepst_refl h : keepst h h. Proof. repeat split. Qed.
Lemma keepst_apw h0 h w : keepst h0 h -> keepst h0 (apw w h). Proof. auto. Qed.
Lemma acch_keepst h0 h l : keepst h0 h -> acch h0 l -> acch h l.
Proof. intros (_ & E1 & E2). unfold acch. now rewrite E1, E2. Qed.
Lemma acc_mono c lv l : acc c lv l = true -> acc c (fun _ => true) l = true.
Proof. destruct l; cbn; auto; intro H; rewrite ?andb_true_iff in *; tauto. Qed.

Lemma inv_wr h l v : inv h -> okv (h_alloc h) l v -> l <> InputsInit ->
  (isflag l = true -> v = VZ 1 /\ forall l', flag_of (h_alloc h) l' = Some l ->
     acc (h_alloc h) (fun _ => true) l' = true -> h_mem h l' <> None) ->
  inv (apw [(l, v)] h).
Proof.
  intros I O N Fl. apply inv_apw; auto. constructor.
  - intros l' v' [E|[]]. now injection E as <- <-.
  - intros l' v' [E|[]]. injection E as <- <-. intro. now apply Fl.
  - intros l' v' [E|[]]. now injection E as <- <-.
  - intros f v' l' [E|[]] Q A. injection E as <- <-. right. apply (proj2 (Fl (flag_of_isflag _ _ _ Q))); auto.
Qed.

Lemma apw1 h l v : h_mem (apw [(l, v)] h) l = Some v.
Proof. apply upd_same. Qed.
Lemma apw1_other h l v l' : l <> l' -> h_mem (apw [(l, v)] h) l' = h_mem h l'.
Proof. apply upd_other. Qed.

Lemma flag_val h f : inv h -> isflag f = true -> exists n, h_mem h f = Some (VZ n) /\ (n = 0 \/ n = 1).
Proof.
  intros I F. pose proof (i_always _ _ I f) as A. destruct (h_mem h f) as [v|] eqn:E.
  - pose proof (i_typed _ _ I _ _ E) as T. destruct f; try discriminate F; cbn in T;
      (destruct v; [|easy]); cbn in T; eauto.
  - exfalso. apply A; auto. destruct f; try discriminate F; reflexivity.
Qed.

Lemma isD_val h c l v : h_mem h l = Some v -> okv c l v ->
  (forall w, okv c l w -> exists d, w = VD d) -> exists d, h_mem h l = Some (VD d).
Proof. intros E O H. destruct (H _ O) as (d & ->). eauto. Qed.

Definition qn (h : handle) : Z := c_n_quad (h_alloc h) + c_n_umus (h_alloc h).

Lemma qx_def h i : inv h -> 0 <= i < (if match h_mem h FlUmus with Some (VZ 0) => true | _ => false end
                                      then c_n_quad (h_alloc h) else qn h) ->
  exists d, h_mem h (Qx i) = Some (VD d).
Proof.
  intros I Hi. unfold qn in *.
  pose proof (g_nq _ (k_good _ (i_core _ _ I))). pose proof (g_num _ (k_good _ (i_core _ _ I))).
  assert (D : h_mem h (Qx i) <> None).
  { destruct (Z.ltb_spec i (c_n_quad (h_alloc h))).
    - apply (i_always _ _ I). cbn. apply in_range_iff. lia.
    - eapply (i_flag _ _ I (Qx i) FlUmus).
      + cbn. destruct (Z.ltb_spec i (c_n_quad (h_alloc h))); [lia|reflexivity].
      + destruct (flag_val h FlUmus I eq_refl) as (n & E & [-> | ->]); rewrite E in Hi; auto. lia.
      + cbn. apply in_range_iff. destruct (h_mem h FlUmus) as [[[]|]|]; lia. }
  destruct (h_mem h (Qx i)) as [v|] eqn:E; [|easy]. pose proof (i_typed _ _ I _ _ E) as T.
  cbn in T. destruct v; [easy|]. eauto.
Qed.

Ltac kst := match goal with K : keepst _ _ |- _ => destruct K as (? & ? & ?) end.

(* ------------------------------------------------------------------------- *)
(** * out_taus                                                                *)

Lemma out_taus_wp h x : inv h -> sized h (SetOutTaus x) ->
  wp (exec (SetOutTaus x))
     (fun r h' => r = [] /\ inv h' /\ isset h' FlUtaus /\ has_opt (h_cfg h) OPT_OUTPUT_AT_TAUS = true /\
        forall k, 0 <= k < c_n_ulevels (h_cfg h) -> h_mem h' (Utaus k) = Some (VD (xd x k)))
     (fun _ => inv) h.
Proof.
  intros I SZ. cbn in SZ. cbn [HandleModel.exec]. unfold done, set_out_taus.
  pose proof (i_core _ _ I) as C. pose proof (cfg_dims _ _ (k_cfg _ C)) as KC. pose proof (k_good _ C) as KG.
  pose proof (de_nu _ _ KC) as EN. pose proof (g_nu _ KG).
  apply wp_bind. apply wp_bind. unfold need_opt. apply wp_bind. apply wp_cfg.
  apply wp_reject; [intro; exact I|]. intro O. apply negb_false_iff in O.
  apply wp_bind. apply wp_cfg. apply wp_bind.
  apply (wp_zfor _ (fun i h' => inv h' /\ keepst h h' /\
     forall k, 0 <= k < i -> h_mem h' (Utaus k) = Some (VD (xd x k)))); [lia| | |].
  - split; [exact I|]. split; [apply keepst_refl|]. intros. lia.
  - intros i h1 Hi (I1 & K1 & V1). apply wp_bind. apply (wp_ua d_zero); [lia|].
    apply wp_bind. apply wp_reject; [intros _; exact I1|]. intro N.
    assert (A : acch h1 (Utaus i)).
    { eapply acch_keepst; [exact K1|]. unfold acch. cbn. apply andb_true_iff. split.
      - rewrite <- (g_out _ KG). unfold OPT_OUTPUT_AT_TAUS in *. now rewrite <- (opt_eq _ _ 8 KC).
      - apply in_range_iff. lia. }
    apply wp_wr; [exact A|]. split; [|split].
    + apply inv_wr; auto; try discriminate.
    + exact K1.
    + intros k Hk. destruct (Z.eq_dec k i) as [->|N']; [apply apw1|].
      rewrite apw1_other by congruence. apply V1. lia.
  - intros h1 (I1 & K1 & V1). apply wp_bind. apply wp_wr; [reflexivity|]. apply wp_deps_all.
    apply wp_ret. split; auto. split; [|split; [apply apw1|split; [exact O|]]].
    + apply inv_dep_or. apply inv_wr; auto; try discriminate.
      * cbn. auto.
      * intros _. split; auto. intros l' Hf Ha. destruct l'; cbn in Hf; try discriminate Hf.
        -- cbn in Ha. bands. destruct K1 as (_ & EA & _). rewrite EA in *. rewrite V1 by lia. discriminate.
        -- match type of Hf with (if ?b then _ else _) = _ => destruct b; discriminate Hf end.
    + intros k Hk. change (h_mem (apw [(FlUtaus, VZ 1)] h1) (Utaus k) = Some (VD (xd x k))).
      rewrite apw1_other by discriminate. now apply V1.
Qed.

(* ------------------------------------------------------------------------- *)
(** * coef                                                                    *)

Definition wl (b : bool) (ne i n n2 : Z) (m : list (list dbl)) : ws :=
  [(NCoefLayer i, VZ n); (NCoefLayer2 i, VZ n2)]
  ++ grid (zseq 0 ne) (zseq 0 n) (Coef0 i) (fun j k => xd (xl m j) k) ++ eflag b (FlCoef i).

Lemma wl_wok h b ne i n n2 m : 0 <= n <= c_n_coef (h_alloc h) -> 0 <= n2 <= c_n_coef2 (h_alloc h) ->
  wok h (wl b ne i n n2 m).
Proof.
  intros Hn Hn2. unfold wl. constructor.
  - intros l v Hl. inw; cbn; auto.
  - intros l v Hl F. inw; auto; discriminate F.
  - intros l v Hl. inw; discriminate.
  - intros f v l Hf E _. inw; destruct l; cbn in E; try discriminate E;
      match type of E with (if ?b then _ else _) = _ => destruct b; discriminate E end.
Qed.
Lemma w2_wok h i n n2 : 0 <= n <= c_n_coef (h_alloc h) -> 0 <= n2 <= c_n_coef2 (h_alloc h) ->
  wok h [(NCoefLayer i, VZ n); (NCoefLayer2 i, VZ n2)].
Proof.
  intros Hn Hn2. constructor.
  - intros l v Hl. inw; cbn; auto.
  - intros l v Hl F. inw; auto; discriminate F.
  - intros l v Hl. inw; discriminate.
  - intros f v l Hf E _. inw; destruct l; cbn in E; try discriminate E;
      match type of E with (if ?b then _ else _) = _ => destruct b; discriminate E end.
Qed.

(** The number of coefficients of layer [i] asked for by the call. *)
Definition nco (c : config) (ns : option (list Z)) (i : Z) : Z :=
  match ns with None => c_n_coef c | Some l => xz l i end.

Definition normalised (n : Z) (m : list (list dbl)) : Prop :=
  1 < n -> dgt (dabs (dsub d_one (xd (xl m 0) 0))) d_eps = false.

Definition coef_layer_ok (h : handle) (n i : Z) (m : list (list dbl)) : Prop :=
  h_mem h (NCoefLayer i) = Some (VZ n) /\
  (forall j k, 0 <= j < c_n_elem (h_cfg h) -> 0 <= k < n -> h_mem h (Coef0 i j k) = Some (VD (xd (xl m j) k))) /\
  (iib h = true -> isset h (FlCoef i)) /\
  normalised n m.

Lemma coef_layer_keep w h n i m : (forall l v, In (l, v) w -> l <> NCoefLayer i /\ l <> FlCoef i /\ l <> InputsInit
    /\ forall j k, l <> Coef0 i j k) ->
  coef_layer_ok h n i m -> coef_layer_ok (apw w h) n i m.
Proof.
  intros N (H1 & H2 & H3 & H4).
  assert (O : forall l, (forall v, ~ In (l, v) w) -> h_mem (apw w h) l = h_mem h l) by (intros; now apply apw_other).
  split; [|split; [|split; [|exact H4]]].
  - rewrite O; auto. intros v Hv. destruct (N _ _ Hv) as (Q & _). now apply Q.
  - intros j k Hj Hk. rewrite O; auto. intros v Hv. destruct (N _ _ Hv) as (_ & _ & _ & Q). now apply (Q j k).
  - unfold isset, iib. rewrite !O; auto; intros v Hv; destruct (N _ _ Hv) as (Q1 & Q2 & Q3 & _); congruence.
Qed.

Lemma set_coef_wp h coef i0 n0 ns : inv h ->
  (in_range i0 (c_n_layers (h_cfg h)) = true -> i0 <= n0 <= c_n_layers (h_cfg h)) ->
  (forall l, ns = Some l -> n0 - i0 <= len l) ->
  (forall i, i0 <= i < n0 -> i - i0 < len coef /\
     wide (xl coef (i - i0)) (c_n_elem (h_cfg h)) (nco (h_cfg h) ns (i - i0))) ->
  wp (set_coef_x coef i0 n0 ns)
     (fun _ h' => inv h' /\ in_range i0 (c_n_layers (h_cfg h)) = true /\
        has_slv (h_cfg h) SOLVERS_USE_COEF = true /\
        forall i, i0 <= i < n0 -> coef_layer_ok h' (nco (h_cfg h) ns (i - i0)) i (xl coef (i - i0)) /\
          0 <= nco (h_cfg h) ns (i - i0) <= c_n_coef (h_cfg h))
     (fun _ => inv) h.
Proof.
  intros I HN HL HW. unfold set_coef_x.
  pose proof (i_core _ _ I) as C. pose proof (cfg_dims _ _ (k_cfg _ C)) as KC. pose proof (k_good _ C) as KG.
  pose proof (de_nl _ _ KC) as EL. pose proof (de_nc _ _ KC) as EC. pose proof (de_nc2 _ _ KC) as EC2.
  pose proof (de_ne _ _ KC) as EE.
  pose proof (g_nc _ KG). pose proof (g_nc2 _ KG). pose proof (g_ne _ KG).
  apply wp_bind. unfold need_slv. apply wp_bind. apply wp_cfg.
  apply wp_reject; [intros _; exact I|]. intro O. apply negb_false_iff in O.
  apply wp_bind. apply wp_cfg. apply wp_bind. unfold CHECK_INDEX_RANGE. apply wp_reject; [intros _; exact I|].
  intro IR. assert (R0 : in_range i0 (c_n_layers (h_cfg h)) = true).
  { unfold in_range. apply orb_false_iff in IR as [? ?]. apply andb_true_iff; split; lia. }
  specialize (HN R0). rewrite in_range_iff in R0.
  assert (OS : has_slv (h_alloc h) SOLVERS_USE_COEF = true) by (unfold has_slv in *; now rewrite <- (de_slv _ _ KC)).
  apply wp_bind.
  assert (HC : wp match ns with
      | None => ret tt
      | Some l => for_ (zseq i0 n0) (fun i =>
          n <- ua l (i - i0);; reject_if (n <? 0) EM1;; reject_if (n >? c_n_coef (h_cfg h)) EM1)
      end (fun _ h' => h' = h /\ forall i, i0 <= i < n0 -> 0 <= nco (h_cfg h) ns (i - i0) <= c_n_coef (h_cfg h))
      (fun _ => inv) h).
  { destruct ns as [l|]; cbn [nco].
    - specialize (HL l eq_refl).
      apply (wp_zfor _ (fun i h' => h' = h /\ forall k, i0 <= k < i -> 0 <= xz l (k - i0) <= c_n_coef (h_cfg h))); [lia| | |].
      + split; auto. intros; lia.
      + intros i h1 Hi (-> & V). apply wp_bind. apply (wp_ua 0); [lia|].
        apply wp_bind. apply wp_reject; [intros; exact I|]. intro. apply wp_reject; [intros; exact I|]. intro.
        split; auto. intros k Hk. destruct (Z.eq_dec k i) as [->|]; [unfold xz; lia|apply V; lia].
      + auto.
    - apply wp_ret. split; auto. intros. lia. }
  eapply wp_conseq; [exact HC| |auto]. clear HC. intros [] h1 (-> & HB).
  apply wp_bind.
  apply (wp_zfor _ (fun i h' => inv h' /\ keepst h h' /\ iib h' = iib h /\
     forall k, i0 <= k < i -> coef_layer_ok h' (nco (h_cfg h) ns (k - i0)) k (xl coef (k - i0)))); [lia| | |].
  - split; auto. split; [apply keepst_refl|]. split; auto. intros; lia.
  - intros i h1 Hi (I1 & K1 & B1 & V1).
    specialize (HB i Hi). destruct (HW i Hi) as [HW1 [HW2 HW3]].
    set (n := nco (h_cfg h) ns (i - i0)) in *.
    set (n2 := match ns with None => c_n_coef2 (h_cfg h) | Some _ => Z.min n (c_n_coef2 (h_cfg h)) end).
    assert (Hn2 : 0 <= n2 <= c_n_coef2 (h_alloc h)) by (unfold n2; destruct ns; lia).
    assert (A1 : acch h1 (NCoefLayer i) /\ acch h1 (NCoefLayer2 i)).
    { split; (eapply acch_keepst; [exact K1|]); unfold acch; cbn [acc]; rewrite OS; apply in_range_iff; lia. }
    destruct A1 as [A1 A2].
    set (h2 := apw [(NCoefLayer i, VZ n); (NCoefLayer2 i, VZ n2)] h1).
    apply wp_bind.
    assert (W : match ns with
      | None => wrZ (NCoefLayer i) (c_n_coef (h_cfg h));; wrZ (NCoefLayer2 i) (c_n_coef2 (h_cfg h))
      | Some l => n <- ua l (i - i0);; wrZ (NCoefLayer i) n;; wrZ (NCoefLayer2 i) (Z.min n (c_n_coef2 (h_cfg h)))
      end h1 = Ret tt h2).
    { assert (W2 : forall a b, (wrZ (NCoefLayer i) a;; wrZ (NCoefLayer2 i) b) h1
         = Ret tt (apw [(NCoefLayer i, VZ a); (NCoefLayer2 i, VZ b)] h1)).
      { intros a b. unfold bind, wrZ, wr. unfold acch in A1, A2. rewrite A1. cbn [h_alloc h_live]. now rewrite A2. }
      unfold h2, n2, n. destruct ns as [l|]; [|apply W2].
      erewrite bind_eq; [apply W2|]. rewrite (ua_ok 0); [reflexivity|]. specialize (HL l eq_refl). lia. }
    unfold wp at 1. rewrite W.
    assert (I2 : inv h2).
    { apply inv_apw; auto. destruct K1 as (E1 & E2 & E3). apply w2_wok; rewrite E2; auto. lia. }
    assert (M2 : h_mem h2 (NCoefLayer i) = Some (VZ n)).
    { unfold h2. apply apw_val; [now left|]. intros u [E|[E|[]]]; congruence. }
    apply wp_bind. eapply wp_rdZ; [exact A1|exact M2|].
    apply wp_bind.
    assert (G : normalised n (xl coef (i - i0)) -> wp (for_ (zseq 0 (c_n_elem (h_cfg h))) (fun j => for_ (zseq 0 n) (fun k =>
          m <- ua coef (i - i0);; r <- ua m j;; a <- ua r k;; wrD (Coef0 i j k) a));;
          set_elem_flag (FlCoef i))
        (fun _ h' => inv h' /\ keepst h h' /\ iib h' = iib h /\
          forall k, i0 <= k < i + 1 -> coef_layer_ok h' (nco (h_cfg h) ns (k - i0)) k (xl coef (k - i0)))
        (fun _ => inv) h2).
    { intro NM.
      assert (D : does h2 (for_ (zseq 0 (c_n_elem (h_cfg h))) (fun j => for_ (zseq 0 n) (fun k =>
          m <- ua coef (i - i0);; r <- ua m j;; a <- ua r k;; wrD (Coef0 i j k) a));;
          set_elem_flag (FlCoef i))
          (grid (zseq 0 (c_n_elem (h_cfg h))) (zseq 0 n) (Coef0 i) (fun j k => xd (xl (xl coef (i - i0)) j) k)
            ++ eflag (iib h2) (FlCoef i))).
      { apply does_seq.
        - apply does_for. intros j Hj. apply does_for. intros k Hk. apply in_zseq in Hj, Hk.
          specialize (HW3 j ltac:(lia)). unfold xl in *.
          apply (does_ua []); [lia|]. apply (does_ua []); [lia|]. apply (does_ua d_zero); [lia|].
          apply does_wr; [|reflexivity]. destruct K1 as (E1 & E2 & E3).
          unfold acch, h2. cbn [acc h_alloc apw]. rewrite E2, OS. cbn [andb]. rewrite !andb_true_iff, !in_range_iff. lia.
        - pose proof (i_core _ _ I2) as C2. apply does_flag; [now apply core_ii| |reflexivity].
          intro B2. unfold acch. cbn [acc]. rewrite (k_live _ C2 BCoef), B2. apply in_range_iff.
          unfold h2. cbn. destruct K1 as (E1 & E2 & E3). rewrite E2. lia. }
      assert (B2 : iib h2 = iib h).
      { unfold h2. rewrite iib_apw; auto. intros l v [E|[E|[]]]; injection E as <- <-; discriminate. }
      destruct D as [_ D]. unfold wp. rewrite D by apply sim_refl. rewrite B2.
      unfold h2. rewrite <- apw_app. change ([(NCoefLayer i, VZ n); (NCoefLayer2 i, VZ n2)] ++
        grid (zseq 0 (c_n_elem (h_cfg h))) (zseq 0 n) (Coef0 i) (fun j k => xd (xl (xl coef (i - i0)) j) k)
            ++ eflag (iib h) (FlCoef i)) with (wl (iib h) (c_n_elem (h_cfg h)) i n n2 (xl coef (i - i0))).
      assert (IW : forall l v, In (l, v) (wl (iib h) (c_n_elem (h_cfg h)) i n n2 (xl coef (i - i0))) -> l <> InputsInit).
      { intros l v Hl. unfold wl in Hl. inw; discriminate. }
      split; [|split; [exact K1|split]].
      + apply inv_apw; auto. destruct K1 as (E1 & E2 & E3). apply wl_wok; rewrite E2; auto. lia.
      + now rewrite iib_apw.
      + intros k Hk. destruct (Z.eq_dec k i) as [->|N].
        * fold n. split; [|split; [|split; [|exact NM]]].
          -- apply apw_val; [now left|]. intros u Hu. unfold wl in Hu. inw; try discriminate; try congruence.
          -- intros j k Hj Hk'. change (h_cfg (apw (wl (iib h) (c_n_elem (h_cfg h)) i n n2 (xl coef (i - i0))) h1)) with (h_cfg h1) in Hj.
             destruct K1 as (E1 & E2 & E3). rewrite E1 in Hj. apply apw_val.
             ++ unfold wl. apply in_or_app. right. apply in_or_app. left. apply in_grid.
                exists j, k. rewrite !in_zseq. auto 10.
             ++ intros u Hu. unfold wl in Hu. inw; try discriminate. congruence.
          -- rewrite iib_apw by auto. rewrite B1. intro B. unfold isset. apply apw_val.
             ++ unfold wl. rewrite B. apply in_or_app. right. apply in_or_app. right. now left.
             ++ intros u Hu. unfold wl in Hu. inw; try discriminate; auto.
        * apply coef_layer_keep; [|apply V1; lia].
          intros l v Hl. unfold wl in Hl. inw; repeat split; try congruence; intros; congruence. }
    destruct (n >? 1) eqn:N1.
    + specialize (HW3 0 ltac:(lia)). apply wp_bind. apply (wp_ua []); [lia|]. apply wp_bind. unfold xl in *.
      apply (wp_ua []); [lia|]. apply wp_bind. apply (wp_ua d_zero); [lia|].
      apply wp_reject; [intros _; exact I2|]. intro NM. apply G. intros _. exact NM.
    + apply wp_ret. apply G. intro. lia.
  - intros h1 (I1 & K1 & B1 & V1). apply wp_deps. split; [now apply inv_dep_or|].
    split; [apply in_range_iff; lia|]. split; auto. intros i Hi. split; [exact (V1 i Hi)|auto].
Qed.

(* ------------------------------------------------------------------------- *)
(** * theta_0 and out_thetas                                                  *)

Definition adjI (h0 : handle) (m : dbl) (h : handle) : Prop :=
  inv h /\ keepst h0 h /\ h_mem h Mu00 = Some (VD m) /\ h_mem h Mu0 <> None /\
  (forall l, l <> Mu0 -> h_mem h l = h_mem h0 l).

Lemma adjI_wr h0 m h a : adjI h0 m h -> adjI h0 m (apw [(Mu0, VD a)] h).
Proof.
  intros (I & K & E & N & Q). split; [|split; [exact K|split; [|split]]].
  - apply inv_wr; auto; try discriminate. exact Logic.I.
  - now rewrite apw1_other by discriminate.
  - rewrite apw1. discriminate.
  - intros l Hl. rewrite apw1_other by congruence. auto.
Qed.

Lemma adjust_wp h0 m : forall l count h, adjI h0 m h ->
  (forall i, In i l -> acch h0 (Qx i) /\ exists d, h_mem h0 (Qx i) = Some (VD d)) ->
  wp (adjust_loop l count) (fun _ => adjI h0 m) (fun _ => adjI h0 m) h.
Proof.
  induction l as [|i l IH]; intros count h J H; cbn [adjust_loop].
  - apply wp_ret. auto.
  - pose proof J as (I & K & E & N & Q). destruct (H i (or_introl eq_refl)) as [A (d & D)].
    assert (HT : forall j, In j l -> acch h0 (Qx j) /\ exists d, h_mem h0 (Qx j) = Some (VD d)) by (intros; apply H; now right).
    apply wp_bind. eapply wp_rdD; [eapply acch_keepst; eauto|rewrite Q by discriminate; exact D|].
    apply wp_bind. eapply wp_rdD; [reflexivity|exact E|]. cbv zeta.
    destruct (negb _).
    + apply wp_bind. apply wp_wr; [reflexivity|].
      destruct (count + 1 >? 1); [apply wp_fail; now apply adjI_wr|]. apply IH; auto using adjI_wr.
    + destruct (count >? 1); [apply wp_fail; auto|]. apply IH; auto.
Qed.

Lemma mu0_adjust_wp h m : inv h -> h_mem h Mu00 = Some (VD m) ->
  wp (mu_0_singularity_adjust) 
     (fun _ h' => inv h' /\ keepst h h' /\ h_mem h' Mu00 = Some (VD m) /\ h_mem h' Mu0 <> None /\
        (forall l, l <> Mu0 -> h_mem h' l = h_mem h l))
     (fun _ h' => inv h') h.
Proof.
  intros I E. unfold mu_0_singularity_adjust. pose proof (i_core _ _ I) as C.
  pose proof (cfg_dims _ _ (k_cfg _ C)) as KC. pose proof (k_good _ C) as KG.
  apply wp_bind. apply wp_cfg. apply wp_bind. eapply wp_rdD; [reflexivity|exact E|].
  apply wp_bind. apply wp_wr; [reflexivity|].
  destruct (flag_val h FlUmus I eq_refl) as (u & EU & HU).
  apply wp_bind. eapply wp_rdZ; [reflexivity|rewrite apw1_other by discriminate; exact EU|].
  apply wp_bind.
  set (h1 := apw [(Mu0, VD m)] h).
  assert (J : adjI h m h1).
  { split; [|split; [apply (keepst_apw h h), keepst_refl|split; [|split]]].
    - apply inv_wr; auto; try discriminate. exact Logic.I.
    - unfold h1. now rewrite apw1_other by discriminate.
    - unfold h1. rewrite apw1. discriminate.
    - intros l Hl. unfold h1. now rewrite apw1_other by congruence. }
  eapply wp_conseq; [apply (adjust_wp h m)| |].
  - exact J.
  - intros i Hi. apply in_zseq in Hi. rewrite (de_nq _ _ KC), (de_num _ _ KC) in Hi.
    pose proof (g_num _ KG). split.
    + unfold acch. cbn. apply in_range_iff. destruct (u =? 0); lia.
    + apply qx_def; auto. rewrite EU. unfold qn. destruct HU as [-> | ->]; cbn in *; lia.
  - cbv beta. intros n h2 (I2 & K2 & E2 & N2 & Q2). apply wp_when.
    + intros _. apply wp_deps_all. split; [now apply inv_dep_or|]. auto.
    + auto 10.
  - cbv beta. intros e h2 (I2 & _). exact I2.
Qed.

Lemma n_four2_wp h f1 f2 (Q : unit -> handle -> Prop) F : inv h -> (f1 = true -> exists m, h_mem h Mu00 = Some (VD m)) ->
  (f2 = true -> c_n_umus (h_cfg h) = 1 -> exists m, h_mem h (Qx (c_n_quad (h_cfg h))) = Some (VD m)) ->
  (forall z, inv (apw [(NFour2, VZ z)] h) -> Q tt (apw [(NFour2, VZ z)] h)) ->
  wp (update_n_four2_m f1 f2) Q F h.
Proof.
  intros I H1 H2 HQ. unfold update_n_four2_m. apply wp_bind, wp_cfg. apply wp_bind.
  pose proof (i_core _ _ I) as C.
  pose proof (cfg_dims _ _ (k_cfg _ C)) as KC. pose proof (k_good _ C) as KG.
  assert (E : forall b, wp (wrZ NFour2 (if b : bool then 1 else c_n_four (h_cfg h))) Q F h).
  { intro b. apply wp_wr; [reflexivity|]. apply HQ. apply inv_wr; auto; try discriminate. exact Logic.I. }
  destruct (_ || _); [apply wp_ret, (E true)|]. destruct (negb _); [apply wp_ret, (E false)|].
  assert (E2 : forall b1 : bool, wp (if b1 then ret true else if f2 && (c_n_umus (h_cfg h) =? 1)
       then m <- rdD (Qx (c_n_quad (h_cfg h)));; ret (deq m d_one) else ret false)
       (fun a h' => wp (wrZ NFour2 (if a then 1 else c_n_four (h_cfg h))) Q F h') F h).
  { intros []; [apply wp_ret, (E true)|]. destruct f2; cbn [andb]; [|apply wp_ret, (E false)].
    destruct (Z.eqb_spec (c_n_umus (h_cfg h)) 1) as [U|U]; [|apply wp_ret, (E false)].
    destruct (H2 eq_refl U) as (m & Em). apply wp_bind. eapply wp_rdD; [|exact Em|apply wp_ret, (E (deq m d_one))].
    unfold acch. cbn. apply in_range_iff. rewrite (de_nq _ _ KC). rewrite (de_num _ _ KC) in U.
    pose proof (g_nq _ KG). lia. }
  apply wp_bind. destruct f1.
  - destruct (H1 eq_refl) as (m & Em). apply wp_bind. eapply wp_rdD; [reflexivity|exact Em|]. apply wp_ret, (E2 (deq m d_one)).
  - apply wp_ret, (E2 false).
Qed.

Lemma theta_0_wp h x : inv h ->
  wp (exec (SetTheta0 x))
     (fun r h' => r = [] /\ inv h' /\ isset h' FlMu0 /\ has_opt (h_cfg h) OPT_SOURCE_SOLAR = true /\
        h_mem h' Mu00 = Some (VD (cosd x)))
     (fun _ => inv) h.
Proof.
  intro I. cbn [HandleModel.exec]. unfold done, set_theta_0. apply wp_bind.
  apply wp_bind. unfold need_opt. apply wp_bind, wp_cfg. apply wp_reject; [intro; exact I|].
  intro O. apply negb_false_iff in O. apply wp_bind. apply wp_reject; [intro; exact I|]. intro N.
  apply wp_bind. apply wp_wr; [reflexivity|].
  set (h1 := apw [(Mu00, VD (cosd x))] h).
  assert (I1 : inv h1).
  { apply inv_wr; auto; try discriminate. cbn. apply orb_false_iff in N as [? ?]. now exists x. }
  destruct (flag_val h1 FlUmus I1 eq_refl) as (u & EU & HU).
  apply wp_bind. eapply wp_rdZ; [reflexivity|exact EU|].
  assert (E1 : h_mem h1 Mu00 = Some (VD (cosd x))) by apply apw1.
  apply wp_bind. apply n_four2_wp; auto.
  - eauto.
  - intros U U1. pose proof (i_core _ _ I1) as C.
    pose proof (cfg_dims _ _ (k_cfg _ C)) as KC. pose proof (k_good _ C) as KG.
    apply qx_def; auto. rewrite EU. unfold qn. rewrite (de_nq _ _ KC). pose proof (g_nq _ KG).
    destruct HU as [-> | ->]; [discriminate|]. cbn [Z.eqb]. rewrite (de_num _ _ KC) in U1. lia.
  - intros z I2. apply wp_bind. apply wp_wrap. eapply wp_conseq.
    + apply (mu0_adjust_wp _ (cosd x)); auto.
    + cbv beta. intros [] h2 (I3 & K3 & E3 & N3 & Q3). apply wp_bind. apply wp_wr; [reflexivity|]. apply wp_deps_all.
      apply wp_ret. split; auto. split; [|split; [apply apw1|split; [exact O|]]].
      * apply inv_dep_or. apply inv_wr; auto; try discriminate.
        -- cbn. auto.
        -- intros _. split; auto. intros l' Hf _. destruct l'; cbn in Hf; try discriminate Hf; auto;
             try (match type of Hf with (if ?b then _ else _) = _ => destruct b; discriminate Hf end).
           rewrite E3. discriminate.
      * change (h_mem (apw [(FlMu0, VZ 1)] h2) Mu00 = Some (VD (cosd x))). now rewrite apw1_other by discriminate.
    + auto.
Qed.

Lemma out_thetas_wp h x : inv h -> sized h (SetOutThetas x) ->
  wp (exec (SetOutThetas x))
     (fun r h' => r = [] /\ inv h' /\ isset h' FlUmus /\ c_n_umus (h_cfg h) <> 0 /\
        forall k, 0 <= k < c_n_umus (h_cfg h) -> h_mem h' (Qx (c_n_quad (h_cfg h) + k)) = Some (VD (cosd (xd x k))))
     (fun _ => inv) h.
Proof.
  intros I SZ. cbn in SZ. cbn [HandleModel.exec]. unfold done, set_out_thetas.
  pose proof (i_core _ _ I) as C. pose proof (cfg_dims _ _ (k_cfg _ C)) as KC. pose proof (k_good _ C) as KG.
  pose proof (de_num _ _ KC) as EN. pose proof (de_nq _ _ KC) as EQ. pose proof (g_num _ KG). pose proof (g_nq _ KG).
  apply wp_bind, wp_bind, wp_cfg. apply wp_bind. apply wp_reject; [intro; exact I|]. intro U0.
  apply wp_bind.
  apply (wp_zfor _ (fun i h' => h' = h /\ forall k, 0 <= k < i -> dlt (xd x k) d_zero || dge (xd x k) d_90 = false)); [lia| | |].
  { split; auto. intros; lia. }
  { intros i h1 Hi (-> & V). apply wp_bind. apply (wp_ua d_zero); [lia|]. apply wp_reject; [intro; exact I|].
    intro N. split; auto. intros k Hk. destruct (Z.eq_dec k i) as [->|]; [exact N|apply V; lia]. }
  intros h1 (-> & V). apply wp_bind.
  apply (wp_zfor _ (fun i h' => inv h' /\ keepst h h' /\
     forall k, 0 <= k < i -> h_mem h' (Qx (c_n_quad (h_cfg h) + k)) = Some (VD (cosd (xd x k))))); [lia| | |].
  { split; auto. split; [apply keepst_refl|]. intros; lia. }
  { intros i h1 Hi (I1 & K1 & V1). apply wp_bind. apply (wp_ua d_zero); [lia|].
    apply wp_wr; [eapply acch_keepst; [exact K1|]; unfold acch; cbn; apply in_range_iff; lia|].
    split; [|split; [exact K1|]].
    - apply inv_wr; auto; try discriminate. cbn. intros _. specialize (V i Hi). apply orb_false_iff in V as [? ?].
      now exists (xd x i).
    - intros k Hk. destruct (Z.eq_dec k i) as [->|N]; [apply apw1|]. rewrite apw1_other; [apply V1; lia|].
      intro Q. injection Q. lia. }
  intros h1 (I1 & K1 & V1). apply wp_bind. apply wp_wr; [reflexivity|].
  set (h2 := apw [(FlUmus, VZ 1)] h1).
  assert (I2 : inv h2).
  { apply inv_wr; auto; try discriminate; [cbn; auto|]. intros _. split; auto.
    intros l' Hf Ha. destruct l'; cbn in Hf; try discriminate Hf.
    destruct (Z.ltb_spec i (c_n_quad (h_alloc h1))); [discriminate|]. cbn in Ha. bands.
    destruct K1 as (E1 & E2 & E3). rewrite E2 in *.
    specialize (V1 (i - c_n_quad (h_cfg h)) ltac:(lia)).
    replace (c_n_quad (h_cfg h) + (i - c_n_quad (h_cfg h))) with i in V1 by lia. rewrite V1. discriminate. }
  assert (EU : isset h2 FlUmus) by apply apw1.
  assert (V2 : forall k, 0 <= k < c_n_umus (h_cfg h) -> h_mem h2 (Qx (c_n_quad (h_cfg h) + k)) = Some (VD (cosd (xd x k)))).
  { intros k Hk. unfold h2. rewrite apw1_other by discriminate. auto. }
  destruct (flag_val h2 FlMu0 I2 eq_refl) as (f & EF & HF).
  apply wp_bind. eapply wp_rdZ; [reflexivity|exact EF|].
  assert (M0 : f = 1 -> exists m, h_mem h2 Mu00 = Some (VD m)).
  { intros ->. pose proof (i_flag _ _ I2 Mu00 FlMu0 eq_refl EF eq_refl) as D.
    destruct (h_mem h2 Mu00) as [v|] eqn:E; [|easy]. pose proof (i_typed _ _ I2 _ _ E) as T.
    destruct v; cbn in T; [easy|]. eauto. }
  apply wp_bind. destruct K1 as (E1 & E2 & E3).
  apply n_four2_wp; auto.
  - intro N. apply M0. destruct HF as [-> | ->]; [discriminate|auto].
  - intros _ U. change (h_cfg h2) with (h_cfg h1) in *. rewrite E1 in *. exists (cosd (xd x 0)).
    rewrite <- (V2 0) by lia. f_equal. f_equal. lia.
  - intros z I3. set (h3 := apw [(NFour2, VZ z)] h2) in *.
    assert (V3 : forall k, 0 <= k < c_n_umus (h_cfg h) -> h_mem h3 (Qx (c_n_quad (h_cfg h) + k)) = Some (VD (cosd (xd x k)))).
    { intros k Hk. unfold h3. rewrite apw1_other by discriminate. auto. }
    assert (EU3 : isset h3 FlUmus) by (unfold isset, h3; now rewrite apw1_other by discriminate).
    assert (U0' : c_n_umus (h_cfg h) <> 0) by lia.
    apply wp_bind. apply wp_when.
    + intro N. destruct HF as [-> | ->]; [discriminate|]. destruct (M0 eq_refl) as (m & Em).
      apply wp_wrap. eapply wp_conseq; [apply (mu0_adjust_wp h3 m)| |]; auto.
      cbv beta. intros [] h4 (I4 & K4 & E4 & N4 & Q4). apply wp_deps_all. apply wp_ret.
      split; auto. split; [now apply inv_dep_or|]. split; [|split; auto].
      * unfold isset in *. change (h_mem h4 FlUmus = Some (VZ 1)). now rewrite Q4 by discriminate.
      * intros k Hk. change (h_mem h4 (Qx (c_n_quad (h_cfg h) + k)) = Some (VD (cosd (xd x k)))).
        rewrite Q4 by discriminate. auto.
    + intros _. apply wp_deps_all. apply wp_ret. split; auto. split; [now apply inv_dep_or|]. auto.
Qed.

End Steps.
