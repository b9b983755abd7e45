(** Inputs stay in their documented ranges over every history of calls. *)
From Coq Require Import ZArith NArith List Bool Lia SpecFloat.
From Verif Require Import Base OptionsModel OptionsSpec OptionsProofs Dbl HandleModel HandleTable HandleWp
  HandleSetters HandleInv HandleSteps HandleGetters HandleSpec HandleFrame HandleGate HandleSolve HandleHist HandleCalls
  HandleHistory HandleGetSet.
Import ListNotations.
Open Scope Z_scope.

(** ** Comparisons *)
Lemma pcompare_antisym p q : Pos.compare_cont Eq p q = CompOpp (Pos.compare_cont Eq q p).
Proof. change (Pos.compare p q = CompOpp (Pos.compare q p)). now rewrite <- Pos.compare_antisym. Qed.

Lemma cmp_swap a b : SFcompare a b = match SFcompare b a with Some c => Some (CompOpp c) | None => None end.
Proof.
  destruct a as [?|s1| |s1 m1 e1], b as [?|s2| |s2 m2 e2]; cbn; try destruct s1; try destruct s2; cbn; try reflexivity.
  - rewrite (Z.compare_antisym e2 e1). destruct (e2 ?= e1); cbn; try reflexivity.
    rewrite (pcompare_antisym m1 m2). now rewrite CompOpp_involutive.
  - rewrite (Z.compare_antisym e2 e1). destruct (e2 ?= e1); cbn; try reflexivity.
    now rewrite (pcompare_antisym m1 m2).
Qed.

Lemma cmp_none a b : SFcompare a b = None -> a = S754_nan \/ b = S754_nan.
Proof.
  destruct a as [?|s1| |s1 m1 e1], b as [?|s2| |s2 m2 e2]; cbn; auto; try destruct s1; try destruct s2; try discriminate;
    destruct (e1 ?= e2); discriminate.
Qed.

Lemma not_le a b : dle a b = false -> a = S754_nan \/ b = S754_nan \/ dlt b a = true.
Proof.
  unfold dle, dlt, SFleb, SFltb. intro H. rewrite (cmp_swap b a). destruct (SFcompare a b) as [[]|] eqn:E; try discriminate; auto.
  apply cmp_none in E. tauto.
Qed.
Lemma not_lt a b : dlt a b = false -> a = S754_nan \/ b = S754_nan \/ dle b a = true.
Proof.
  unfold dle, dlt, SFleb, SFltb. intro H. rewrite (cmp_swap b a). destruct (SFcompare a b) as [[]|] eqn:E; try discriminate; auto.
  apply cmp_none in E. tauto.
Qed.

Lemma above_zero d : posi d -> above d_zero d.
Proof. intro H. apply not_le in H as [->|[H|H]]; [now left|discriminate|now right]. Qed.
Lemma at_least_zero d : nonneg d -> at_least d_zero d.
Proof. intro H. apply not_lt in H as [->|[H|H]]; [now left|discriminate|now right]. Qed.
Lemma at_most_one d : dgt d d_one = false -> at_most d_one d.
Proof. intro H. apply not_lt in H as [H|[->|H]]; [discriminate|now left|now right]. Qed.

Lemma cmp_eq_pos d m e : SFcompare d (S754_finite false m e) = Some Eq -> d = S754_finite false m e.
Proof.
  destruct d as [s1|s1| |s1 m1 e1]; cbn [SFcompare]; try discriminate; destruct s1; try discriminate.
  destruct (e1 ?= e) eqn:E; try discriminate. intro H. apply Z.compare_eq in E as ->.
  assert (P : Pos.compare m1 m = Eq) by (unfold Pos.compare; congruence).
  apply Pos.compare_eq in P as ->. reflexivity.
Qed.
Lemma cmp_eq_one d : SFcompare d d_one = Some Eq -> d = d_one.
Proof. apply cmp_eq_pos. Qed.

Definition albedo_ok (d : dbl) : Prop := at_least d_zero d /\ below d_one d.
Lemma adj_ok x : omega_in x = true -> albedo_ok (omega_adj x).
Proof.
  unfold omega_in. intro H. apply negb_true_iff, orb_false_iff in H as [H1 H2].
  unfold omega_adj, singularity_adjust_down. destruct (dlt (dsub d_one x) d_1em5) eqn:A.
  - split; right; vm_compute; reflexivity.
  - split; [now apply at_least_zero|]. apply at_most_one in H2 as [->|H2]; [now left|]. right.
    unfold dlt, dle, SFltb, SFleb in *. destruct (SFcompare x d_one) as [[]|] eqn:E; try discriminate; auto.
    apply cmp_eq_one in E. subst x. vm_compute in A. discriminate.
Qed.

Section Range.
Variables cosd acosd : dbl -> dbl.
Notation inv := (inv cosd).
Notation exec := (exec cosd acosd).
Notation hist := (hist cosd acosd).
Notation steps := (steps cosd acosd).

(** Relations between elements that the setters check. *)
Record ranges (h : handle) : Prop := {
  r_omega : forall i d, h_mem h (Omega0 i) = Some (VD d) -> albedo_ok d;
  r_z : forall i a b, 0 <= i < c_n_layers (h_alloc h) -> h_mem h (LevelsZ i) = Some (VD a) ->
        h_mem h (LevelsZ (i + 1)) = Some (VD b) -> dgt b a = false;
  r_lev : has_opt (h_alloc h) OPT_OUTPUT_AT_LEVELS = true -> forall i a b, 0 <= i < c_n_ulevels (h_alloc h) - 1 ->
        h_mem h (Ulevels i) = Some (VZ a) -> h_mem h (Ulevels (i + 1)) = Some (VZ b) -> a < b }.

Lemma ranges0 nodes c : good c -> ranges (handle0 nodes c).
Proof.
  intro G. constructor; cbn [handle0 h_mem h_alloc mem0]; try discriminate.
  intros O i a b Hi. rewrite O. destruct (Z.eqb_spec i 0) as [->|].
  - cbn. intros H1 H2. injection H1 as <-. injection H2 as <-. pose proof (g_nl _ G). lia.
  - destruct (Z.eqb_spec i 1) as [->|]; [|discriminate]. cbn. discriminate.
Qed.

(** Cells no accepted call about their quantity touches. *)
Lemma kept h o ok h' l x : inv h -> sized h o -> steps h o ok h' -> owner l = Some x ->
  (forall i, l = Ulevels i -> has_opt (h_alloc h) OPT_OUTPUT_AT_LEVELS = true) ->
  changes o x = false -> h_mem h' l = h_mem h l.
Proof.
  intros I SZ ST O UL C. pose proof (only_exec cosd acosd o h) as OO.
  assert (T : tch o l = false -> h_mem h' l = h_mem h l)
    by (unfold HandleHist.steps in ST; destruct ok, ST as (v & E); rewrite E in OO; auto).
  assert (L : (exists i, l = Ulevels i) \/ forall i, l <> Ulevels i)
    by (destruct l; try (right; discriminate); left; eauto).
  destruct L as [[i ->]|L].
  2:{ apply T. unfold tch. rewrite O, C. cbn [orb]. destruct (kind_of o), l; try reflexivity; now elim (L i). }
  specialize (UL i eq_refl). unfold HandleHist.steps in ST.
  assert (SS : forall h2, SR cosd h h2 -> h_mem h2 (Ulevels i) = h_mem h (Ulevels i)).
  { intros h2 (_ & _ & _ & _ & M). apply M; try discriminate. now left. }
  destruct (kind_of o) eqn:K; try (apply T; unfold tch; rewrite O, C, K; reflexivity).
  - pose proof (solve_SR cosd acosd o h K I) as P. unfold tr_SR in P. destruct ok, ST as (v & E); rewrite E in P; auto.
  - destruct o; try discriminate K. destruct (solve2_part cosd acosd h fx I) as [E0|[E0|(h2 & S & _ & [[E0 _]|[E0 _]])]];
      destruct ok, ST as (v & E); rewrite E in E0; try discriminate E0; injection E0; intros; subst; auto.
    exact (SS _ S).
Qed.

Lemma cell_one h g r l v : inv h -> gres acosd h g = r -> r = [v] -> gcfg (h_cfg h) g = [] ->
  gcells (h_cfg h) g = [l] -> gpost acosd g (cellv h l) = v.
Proof. intros I E1 E2 E3 E4. unfold gres in E1. rewrite E3, E4 in E1. cbn in E1. congruence. Qed.

Lemma simple_step h o ok h' : inv h -> sized h o -> steps h o ok h' -> simple o = true ->
  (h' = h) \/ (accept (h_cfg h) o = true /\ h' = effect h o).
Proof.
  intros I SZ ST S. pose proof (simple_R cosd acosd h o (i_core _ _ I) SZ S) as R. unfold HandleTable.R in R.
  unfold HandleHist.steps in ST. destruct (accept (h_cfg h) o).
  - right. split; auto. destruct ok, ST as (v & E); rewrite E in R; [now injection R as -> ->|discriminate].
  - left. destruct R as (e & R). destruct ok, ST as (v & E); rewrite E in R; [discriminate|now injection R as -> ->].
Qed.

Lemma eff_cell h o l : h_mem (effect h o) l = h_mem (apw (writes h o) h) l.
Proof. unfold effect. now rewrite mem_post. Qed.

Lemma step_ranges h o ok h' : inv h -> sized h o -> steps h o ok h' -> ranges h -> ranges h'.
Proof.
  intros I SZ ST X. pose proof (step_alloc cosd acosd h o ok h' I ST) as EA.
  pose proof (i_core _ _ I) as C. pose proof (cfg_dims _ _ (k_cfg _ C)) as KC.
  constructor.
  - intros i d. destruct (changes o (IOmega i)) eqn:CH.
    + assert (S : simple o = true) by (destruct o; try discriminate CH; reflexivity).
      destruct (simple_step _ _ _ _ I SZ ST S) as [->|[A ->]]; [apply (r_omega _ X)|].
      rewrite eff_cell. destruct o; try discriminate CH; cbn [changes] in CH; cbn [writes accept andl fold_right] in *;
        rewrite apw_app.
      * apply Z.eqb_eq in CH as ->.
        rewrite (apw_val _ _ _ (VD (omega_adj x))).
        -- intro E. injection E as <-. apply adj_ok. rewrite andb_true_r in A. apply andb_true_iff in A as [_ A].
           rewrite zseq_one in A. cbn [forallb] in A. rewrite xd1, andb_true_r in A. exact A.
        -- apply in_row. exists i. rewrite in_zseq, xd1. repeat split; lia.
        -- intros u Hu. apply in_row in Hu as (k & _ & E & ->). injection E as <-. now rewrite xd1.
      * destruct (apw_dec (row (zseq 0 (c_n_layers (h_cfg h))) Omega0 (fun k => omega_adj (xd x (k - 0))))
           (apw (rowf (iib h) (zseq 0 (c_n_layers (h_cfg h))) Omega0 FlOmega (fun k => xd x (k - 0))) h) (Omega0 i))
          as [[-> N]|(v & Hv & ->)].
        -- rewrite apw_other; [apply (r_omega _ X)|]. intros v Hv. apply in_rowf in Hv as (k & Hk & [[E ->]|(_ & E & _)]); [|discriminate].
           injection E as <-. apply (N (VD (omega_adj (xd x (i - 0))))). apply in_row. eauto.
        -- apply in_row in Hv as (k & Hk & E & ->). injection E as <-. intro E. injection E as <-. apply adj_ok.
           rewrite andb_true_r in A. apply andb_true_iff in A as [_ A]. rewrite forallb_forall in A. now apply A.
    + rewrite (kept h o ok h' (Omega0 i) (IOmega i)); auto; [apply (r_omega _ X)|discriminate].
  - intros i a b. rewrite EA. destruct (changes o ILevelsZ) eqn:CH.
    + assert (S : simple o = true) by (destruct o; try discriminate CH; reflexivity).
      destruct (simple_step _ _ _ _ I SZ ST S) as [->|[A ->]]; [apply (r_z _ X)|].
      rewrite !eff_cell. destruct o; try discriminate CH; cbn [writes accept andl fold_right] in *. intro Hi.
      rewrite <- (de_nl _ _ KC) in Hi. 
      assert (V : forall k, 0 <= k < c_n_layers (h_cfg h) + 1 -> h_mem (apw (row (zseq 0 (c_n_layers (h_cfg h) + 1)) LevelsZ (xd x) ++
         [(FlLevelsZ, VZ 1)]) h) (LevelsZ k) = Some (VD (xd x k))).
      { intros k Hk. apply apw_val.
        - apply in_or_app. left. apply in_row. exists k. now rewrite in_zseq.
        - intros u Hu. apply in_app_or in Hu as [Hu|[Hu|[]]]; [|discriminate].
          apply in_row in Hu as (k' & _ & E & ->). injection E as <-. reflexivity. }
      rewrite !V by lia. intros E1 E2. injection E1 as <-. injection E2 as <-.
      rewrite andb_true_r in A. apply andb_true_iff in A as [_ A]. rewrite forallb_forall in A.
      specialize (A (i + 1)). rewrite in_zseq in A. specialize (A ltac:(lia)). apply negb_true_iff in A.
      replace (i + 1 - 1) with i in A by lia. exact A.
    + rewrite (kept h o ok h' (LevelsZ i) ILevelsZ), (kept h o ok h' (LevelsZ (i + 1)) ILevelsZ); auto; try discriminate; apply (r_z _ X).
  - rewrite EA. intros O i a b. destruct (changes o IOutLevels) eqn:CH.
    + assert (S : simple o = true) by (destruct o; try discriminate CH; reflexivity).
      destruct (simple_step _ _ _ _ I SZ ST S) as [->|[A ->]]; [apply (r_lev _ X O)|].
      rewrite !eff_cell. destruct o; try discriminate CH; cbn [writes accept andl fold_right] in *. intro Hi.
      rewrite <- (de_nu _ _ KC) in Hi.
      assert (V : forall k, 0 <= k < c_n_ulevels (h_cfg h) -> h_mem (apw (flat_map (fun i => [(Ulevels i, VZ (xz x i))]) (zseq 0 (c_n_ulevels (h_cfg h)))
         ++ [(FlUlevels, VZ 1)]) h) (Ulevels k) = Some (VZ (xz x k))).
      { intros k Hk. apply apw_val.
        - apply in_or_app. left. apply in_flat_map. exists k. rewrite in_zseq. split; [lia|now left].
        - intros u Hu. apply in_app_or in Hu as [Hu|[Hu|[]]]; [|discriminate].
          apply in_flat_map in Hu as (k' & _ & [E|[]]). injection E as <- <-. reflexivity. }
      rewrite !V by lia. intros E1 E2. injection E1 as <-. injection E2 as <-.
      repeat match goal with H : _ && _ = true |- _ => apply andb_true_iff in H as [? ?] end.
      match goal with H : forallb (fun i => negb ((xz x i <=? _) || _)) _ = true |- _ => rewrite forallb_forall in H;
        specialize (H (i + 1)); rewrite in_zseq in H; specialize (H ltac:(lia)); apply negb_true_iff, orb_false_iff in H as [L _] end.
      replace (i + 1 - 1) with i in L by lia. lia.
    + rewrite (kept h o ok h' (Ulevels i) IOutLevels), (kept h o ok h' (Ulevels (i + 1)) IOutLevels); auto; apply (r_lev _ X O).
Qed.

Lemma hist_ranges h0 t h : inv h0 -> ranges h0 -> hist h0 t h -> ranges h.
Proof.
  intros I X H. induction H as [|t h o ok h' H IH SZ ST]; auto.
  exact (step_ranges h o ok h' (hist_inv cosd acosd _ _ _ I H) SZ ST IH).
Qed.

(** Normalised phase function. *)
Definition normal (h : handle) : Prop := forall i d, 0 <= i < c_n_layers (h_alloc h) -> 1 < ncl h i ->
  h_mem h (Coef0 i 0 0) = Some (VD d) -> dgt (dabs (dsub d_one d)) d_eps = false.

Lemma step_normal h o ok h' : inv h -> sized h o -> steps h o ok h' -> (is_set_coef o = true -> ok = true) ->
  normal h -> normal h'.
Proof.
  intros I SZ ST NC D i d. rewrite (step_alloc cosd acosd h o ok h' I ST). intro Hi.
  destruct (changes o (ICoef i)) eqn:CH.
  - assert (IS : is_set_coef o = true) by (destruct o; try discriminate CH; reflexivity).
    pose proof ST as ST0. rewrite (NC IS) in ST. destruct ST as (v & E).
    pose proof (coef_wp cosd acosd o h IS I SZ) as W. unfold wp in W. rewrite E in W. destruct W as (_ & I' & _ & W1 & W2).
    assert (KC := cfg_dims _ _ (k_cfg _ (i_core _ _ I))). rewrite <- (de_nl _ _ KC) in Hi.
    destruct (W2 i Hi CH) as [(V1 & V2 & _ & V3) _]. unfold ncl. rewrite V1. intros Hn E1.
    assert (KC' := cfg_dims _ _ (k_cfg _ (i_core _ _ I'))).
    rewrite V2 in E1; [|rewrite (de_ne _ _ KC'); pose proof (g_ne _ (k_good _ (i_core _ _ I'))); lia|lia].
    injection E1 as <-. apply V3. exact Hn.
  - unfold ncl. rewrite (kept h o ok h' (NCoefLayer i) (ICoef i)), (kept h o ok h' (Coef0 i 0 0) (ICoef i)); auto; try discriminate.
    apply (D i d Hi).
Qed.

Lemma hist_normal h0 t h : inv h0 -> normal h0 -> hist h0 t h -> coef_clean t -> normal h.
Proof.
  intros I X H CC. induction H as [|t h o ok h' H IH SZ ST]; auto.
  apply (step_normal h o ok h' (hist_inv cosd acosd _ _ _ I H) SZ ST).
  - intro K. destruct ok; auto. elim (CC o K). now left.
  - apply IH. intros o' K' Ho'. apply (CC o' K'). now right.
Qed.

(** ** Answers are in the documented ranges *)
Lemma nth_zseq n : forall k a, nth_error (zseq a n) k = if a + Z.of_nat k <? n then Some (a + Z.of_nat k) else None.
Proof.
  intros k a. unfold zseq. rewrite nth_error_map. destruct (Z.ltb_spec (a + Z.of_nat k) n).
  - rewrite (nth_error_nth' _ 0%nat) by (rewrite seq_length; lia). rewrite seq_nth by lia. reflexivity.
  - replace (nth_error (seq 0 (Z.to_nat (n - a))) k) with (@None nat); [reflexivity|].
    symmetry. apply nth_error_None. rewrite seq_length. lia.
Qed.
Lemma length_zseq a n : a <= n -> Z.of_nat (length (zseq a n)) = n - a.
Proof. intro. unfold zseq. rewrite map_length, seq_length. lia. Qed.

Definition dval (v : val) : dbl := match v with VD d => d | VZ _ => S754_nan end.
Definition zval (v : val) : Z := match v with VZ z => z | VD _ => 0 end.

Lemma answers_documented h g r nco : inv h -> ranges h -> is_getter g = true -> g <> GetQx -> index_ok (h_cfg h) nco g ->
  exec g h = Ret r h -> documented cosd acosd (h_cfg h) g r.
Proof.
  intros I X G NQ IX E. pose proof (i_core _ _ I) as C. pose proof (cfg_dims _ _ (k_cfg _ C)) as KC.
  pose proof (k_good _ C) as KG.
  assert (GS : gsafe h g) by (eapply index_safe; eauto).
  destruct (answer_accepts cosd acosd _ _ _ I G NQ GS E) as [GA GR].
  pose proof (answer_def cosd acosd _ _ _ _ NQ E) as GD.
  assert (V : forall l, In l (gcells (h_cfg h) g) -> h_mem h l = Some (cellv h l) /\ okv cosd (h_alloc h) l (cellv h l)).
  { intros l L. destruct (gcells_ok cosd h g l I G GA GD L) as [_ D]. unfold cellv.
    destruct (h_mem h l) eqn:M; [|easy]. split; auto. now apply (i_typed _ _ I). }
  assert (ONE : forall l (P Q : dbl -> Prop), gcells (h_cfg h) g = [l] -> (forall v, okv cosd (h_alloc h) l v -> isD v P) ->
            (forall d, h_mem h l = Some (VD d) -> P d -> Q d) -> exists d, cellv h l = VD d /\ Q d).
  { intros l P Q L O PQ. destruct (V l) as [V1 V2]; [rewrite L; now left|]. apply O in V2.
    destruct (cellv h l) as [z|d]; [destruct V2|]. exists d. split; auto. }
  assert (MANY : forall (f : Z -> loc) n (P : dbl -> Prop) (p : dbl -> dbl), 0 <= n -> gcells (h_cfg h) g = map f (zseq 0 n) ->
            (forall k v, 0 <= k < n -> okv cosd (h_alloc h) (f k) v -> isD v (fun d => P (p d))) ->
            doubles n (map (fun l => match cellv h l with VD d => VD (p d) | VZ z => VZ z end) (map f (zseq 0 n))) P).
  { intros f n P p Hn L O. exists (map (fun k => p (dval (cellv h (f k)))) (zseq 0 n)).
    assert (T : forall k, In k (zseq 0 n) -> exists d, cellv h (f k) = VD d /\ P (p d)).
    { intros k Hk. destruct (V (f k)) as [V1 V2]; [rewrite L; now apply in_map|]. apply in_zseq in Hk.
      apply (O k _ Hk) in V2. destruct (cellv h (f k)); [destruct V2|eauto]. }
    split; [|split].
    - rewrite !map_map. apply map_ext_in. intros k Hk. destruct (T k Hk) as (d & -> & _). reflexivity.
    - rewrite map_length. rewrite length_zseq; lia.
    - intros d Hd. apply in_map_iff in Hd as (k & <- & Hk). destruct (T k Hk) as (d & -> & Pd). exact Pd. }
  assert (ID : forall ls, map (fun l => match cellv h l with VD d => VD d | VZ z => VZ z end) ls = map (fun l => cellv h l) ls).
  { intro ls. apply map_ext. intro l. now destruct (cellv h l). }
  assert (NL : 0 <= c_n_layers (h_cfg h)) by (rewrite (de_nl _ _ KC); pose proof (g_nl _ KG); lia).
  assert (NU : 0 <= c_n_ulevels (h_cfg h)) by (rewrite (de_nu _ _ KC); pose proof (g_nu _ KG); lia).
  assert (NM : 0 <= c_n_umus (h_cfg h)) by (rewrite (de_num _ _ KC); pose proof (g_num _ KG); lia).
  destruct g; try exact Logic.I; try discriminate G; unfold gres in GR; cbn [gcfg gcells gpost app map] in GR, V, ONE, MANY;
    cbn [documented]; subst r.
  all: try solve [edestruct ONE as (d & Ed & Qd); [reflexivity|intros v H; exact H|intros d _ H; exact H|];
    rewrite Ed; exists d; split; [reflexivity|first [apply above_zero; exact Qd|apply at_least_zero; exact Qd]]].
  - destruct (V SosMaxOs) as [_ V1]; [now left|]. destruct (V SosMaxTau) as [_ V2]; [right; now left|].
    destruct (V SosTol) as [_ V3]; [right; right; now left|]. cbn [okv] in *.
    destruct (cellv h SosMaxOs), (cellv h SosMaxTau), (cellv h SosTol); cbn in V1, V2, V3; try easy.
    do 3 eexists. split; [reflexivity|]. split; [exact V1|]. split; [now apply above_zero|now apply at_least_zero].
  - assert (DD : doubles (c_n_layers (h_cfg h) + 1) (map (fun l => cellv h l) (map LevelsZ (zseq 0 (c_n_layers (h_cfg h) + 1)))) (fun _ => True)).
    { rewrite <- (ID (map LevelsZ (zseq 0 (c_n_layers (h_cfg h) + 1)))).
      apply (MANY LevelsZ _ (fun _ => True) (fun d => d)); [lia|reflexivity|].
      intros k v _ H. destruct v; [destruct H|exact Logic.I]. }
    split; [exact DD|].
    intros i a b. rewrite !nth_error_map, !nth_zseq.
    destruct (Z.ltb_spec (0 + Z.of_nat i) (c_n_layers (h_cfg h) + 1)); cbn [option_map]; [|discriminate].
    destruct (Z.ltb_spec (0 + Z.of_nat (S i)) (c_n_layers (h_cfg h) + 1)); cbn [option_map]; [|discriminate].
    intros Ea Eb.
    destruct (V (LevelsZ (Z.of_nat i))) as [V1 _]; [apply in_map, in_zseq; lia|].
    destruct (V (LevelsZ (Z.of_nat i + 1))) as [V2 _]; [apply in_map, in_zseq; lia|].
    replace (0 + Z.of_nat i) with (Z.of_nat i) in Ea by lia. replace (0 + Z.of_nat (S i)) with (Z.of_nat i + 1) in Eb by lia.
    injection Ea as Ea. injection Eb as Eb. rewrite Ea in V1. rewrite Eb in V2.
    pose proof (r_z _ X (Z.of_nat i) a b) as Z. rewrite <- (de_nl _ _ KC) in Z.
    specialize (Z ltac:(lia) V1 V2). apply not_lt in Z. unfold is_nan. tauto.
  - cbn [gaccept andl fold_right] in GA. apply andb_true_iff in GA as [GO _].
    assert (AO : has_opt (h_alloc h) OPT_OUTPUT_AT_LEVELS = true).
    { unfold OPT_OUTPUT_AT_LEVELS in *. rewrite <- (opt_eq _ _ 7 KC); [exact GO|discriminate]. }
    exists (map (fun k => zval (cellv h (Ulevels k))) (zseq 0 (c_n_ulevels (h_cfg h)))).
    assert (T : forall k, In k (zseq 0 (c_n_ulevels (h_cfg h))) -> exists z, cellv h (Ulevels k) = VZ z /\ 0 <= z <= c_n_layers (h_cfg h)
       /\ h_mem h (Ulevels k) = Some (VZ z)).
    { intros k Hk. destruct (V (Ulevels k)) as [V1 V2]; [now apply in_map|]. cbn [okv] in V2.
      destruct (cellv h (Ulevels k)) as [z|]; [|destruct V2]. exists z. rewrite (de_nl _ _ KC). cbn in V2. auto. }
    split; [|split; [|split]].
    + rewrite !map_map. apply map_ext_in. intros k Hk. destruct (T k Hk) as (z & -> & _). reflexivity.
    + rewrite map_length, length_zseq; lia.
    + intros l Hl. apply in_map_iff in Hl as (k & <- & Hk). destruct (T k Hk) as (z & -> & Hz & _). exact Hz.
    + intros i a b. rewrite !nth_error_map, !nth_zseq.
      destruct (Z.ltb_spec (0 + Z.of_nat i) (c_n_ulevels (h_cfg h))); cbn [option_map]; [|discriminate].
      destruct (Z.ltb_spec (0 + Z.of_nat (S i)) (c_n_ulevels (h_cfg h))); cbn [option_map]; [|discriminate].
      replace (0 + Z.of_nat (S i)) with (Z.of_nat i + 1) in * by lia. rewrite Z.add_0_l in *.
      intros Ea0 Eb0. apply (f_equal (fun o => match o with Some z => z | None => 0 end)) in Ea0, Eb0. subst a b.
      destruct (T (Z.of_nat i)) as (a & Ea & _ & Ma); [apply in_zseq; lia|].
      destruct (T (Z.of_nat i + 1)) as (b & Eb & _ & Mb); [apply in_zseq; lia|].
      rewrite Ea, Eb. cbn [zval].
      apply (r_lev _ X AO (Z.of_nat i) a b); auto. rewrite <- (de_nu _ _ KC). lia.
  - rewrite <- (ID (map Utaus _)). apply (MANY Utaus _ (at_least d_zero) (fun d => d)); [lia|reflexivity|].
    intros k v _ H. destruct v; [destruct H|]. now apply at_least_zero.
  - apply (MANY (fun i => Qx (c_n_quad (h_cfg h) + i)) _ (is_angle cosd acosd) acosd); [lia|reflexivity|].
    intros k v Hk H. destruct v; [destruct H|]. cbn [okv] in H. cbn in H.
    destruct H as (x & H1 & H2 & ->); [rewrite (de_nq _ _ KC); lia|]. exists x. split; [now apply at_least_zero|]. split; auto.
    apply not_le in H2 as [H2|[->|H2]]; [discriminate|now left|now right].
  - edestruct ONE as (d & Ed & Qd); [reflexivity|intros v H; exact H|intros d _ H; exact H|]. rewrite Ed. cbn.
    exists (acosd d). split; auto. destruct Qd as (x & H1 & H2 & ->). exists x. split; [now apply at_least_zero|]. split; auto.
    apply not_le in H2 as [H2|[->|H2]]; [discriminate|now left|now right].
  - rewrite <- (ID (map LevelsB _)). apply (MANY LevelsB _ (at_least d_zero) (fun d => d)); [lia|reflexivity|].
    intros k v _ H. destruct v; [destruct H|]. now apply at_least_zero.
  - destruct (V (NCoefLayer i)) as [_ V1]; [now left|]. cbn [okv] in V1. destruct (cellv h (NCoefLayer i)); [|destruct V1].
    exists z. split; auto. rewrite (de_nc _ _ KC). exact V1.
  - edestruct ONE as (d & Ed & Qd); [reflexivity|intros v H; exact H|intros d M _; exact (r_omega _ X i d M)|].
    rewrite Ed. exists d. split; auto.
  - edestruct ONE as (d & Ed & Qd); [reflexivity|intros v H; exact H|intros d _ H; exact H|]. rewrite Ed. exists d. split; auto.
    apply negb_true_iff, orb_false_iff in Qd as [Q1 Q2]. split; [now apply at_least_zero|now apply at_most_one].
Qed.
End Range.
