(** The solar cosine a handle uses, over all histories of calls.  Proof support for C28. *)
From Coq Require Import ZArith Reals Bool List Lia Lra SpecFloat.
From Verif Require Import Base OptionsModel Dbl DblReal HandleModel HandleTable HandleWp HandleSetters HandleInv HandleSteps
  HandleSpec HandleFrame HandleHist HandleCalls HandleHistory SingularityProofs.
Import ListNotations.
Open Scope Z_scope.

(** The loop of src/xrtm_interface.c:2663-2675 on a list of nodes. *)
Fixpoint pa (qs : list dbl) (m : dbl) (count : Z) (v : dbl) : option (Z * dbl) :=
  match qs with
  | [] => Some (count, v)
  | q :: qs' =>
      if hit q m then if count + 1 >? 1 then None else pa qs' m (count + 1) (moved q m)
      else if count >? 1 then None else pa qs' m count v
  end.

Lemma pa_one qs m v : pa qs m 1 v = if existsb (fun q => hit q m) qs then None else Some (1, v).
Proof. induction qs as [|q qs IH]; [reflexivity|]. cbn [pa existsb]. destruct (hit q m); cbn; auto. Qed.

(** No node counted, or exactly one. *)
Lemma pa_spec qs m : forall v n w, pa qs m 0 v = Some (n, w) ->
  (n = 0 /\ w = v /\ forall q, In q qs -> hit q m = false) \/
  (n = 1 /\ exists l q r, qs = l ++ q :: r /\ hit q m = true /\ w = moved q m /\ (forall p, In p (l ++ r) -> hit p m = false)).
Proof.
  induction qs as [|q qs IH]; intros v n w H; cbn [pa] in H.
  - injection H as <- <-. left. repeat split; auto. intros q [].
  - destruct (hit q m) eqn:E.
    + cbn in H. rewrite pa_one in H. destruct (existsb _ qs) eqn:X; [discriminate|]. injection H as <- <-. right.
      split; auto. exists [], q, qs. repeat split; auto. intros p Hp. cbn in Hp.
      destruct (hit p m) eqn:P; auto. assert (existsb (fun q => hit q m) qs = true) by (apply existsb_exists; eauto). congruence.
    + cbn in H. destruct (IH _ _ _ H) as [(-> & -> & A)|(-> & l & p & r & -> & P & -> & A)].
      * left. repeat split; auto. intros p [<-|Hp]; auto.
      * right. split; auto. exists (q :: l), p, r. repeat split; auto. intros p' [<-|Hp]; auto.
Qed.
Lemma pa_none qs m v : pa qs m 0 v = None -> exists l p r q t, qs = l ++ p :: r ++ q :: t /\ hit p m = true /\ hit q m = true.
Proof.
  induction qs as [|q qs IH]; cbn [pa]; intro H; [discriminate|]. destruct (hit q m) eqn:E.
  - cbn in H. rewrite pa_one in H. destruct (existsb _ qs) eqn:X; [|discriminate]. apply existsb_exists in X as (p & Hp & P).
    apply in_split in Hp as (r & t & ->). exists [], q, r, p, t. auto.
  - cbn in H. destruct (IH H) as (l & p & r & p' & t & -> & A & B). exists (q :: l), p, r, p', t. auto.
Qed.

(** Nodes and cosines of a handle. *)
Definition node (h : handle) (i : Z) : dbl := match h_mem h (Qx i) with Some (VD q) => q | _ => d_zero end.
Definition used (h : handle) : Z :=
  match h_mem h FlUmus with Some (VZ 0) => c_n_quad (h_cfg h) | _ => c_n_quad (h_cfg h) + c_n_umus (h_cfg h) end.
Definition node_list (h : handle) : list dbl := map (node h) (zseq 0 (used h)).
(** What the last accepted call made of the requested cosine. *)
Definition tuned (h : handle) : Prop := exists m v n,
  h_mem h Mu00 = Some (VD m) /\ h_mem h Mu0 = Some (VD v) /\ pa (node_list h) m 0 m = Some (n, v).

Section S.
Variables cosd acosd : dbl -> dbl.
Notation inv := (inv cosd).
Notation exec := (exec cosd acosd).

Lemma adjust_pa m : forall l count h v, inv h -> h_mem h Mu00 = Some (VD m) -> h_mem h Mu0 = Some (VD v) ->
  (forall i, In i l -> acch h (Qx i) /\ exists d, h_mem h (Qx i) = Some (VD d)) ->
  wp (adjust_loop l count)
     (fun n h' => (forall l', l' <> Mu0 -> h_mem h' l' = h_mem h l') /\ h_cfg h' = h_cfg h /\
        exists w, h_mem h' Mu0 = Some (VD w) /\ pa (map (node h) l) m count v = Some (n, w))
     (fun _ h' => pa (map (node h) l) m count v = None) h.
Proof.
  induction l as [|i l IH]; intros count h v I E V H; cbn [adjust_loop map pa].
  - apply wp_ret. split; auto. split; auto. exists v. auto.
  - destruct (H i (or_introl eq_refl)) as [A (d & D)].
    assert (N : node h i = d) by (unfold node; now rewrite D).
    apply wp_bind. eapply wp_rdD; [exact A|exact D|].
    apply wp_bind. eapply wp_rdD; [reflexivity|exact E|]. cbv zeta. rewrite N. unfold hit. fold (moved d m).
    destruct (negb (deq (moved d m) m)).
    + apply wp_bind. apply wp_wr; [reflexivity|]. set (h1 := apw [(Mu0, VD (moved d m))] h).
      destruct (count + 1 >? 1); [apply wp_fail; reflexivity|].
      assert (EN : map (node h1) l = map (node h) l).
      { apply map_ext. intro j. unfold node, h1. now rewrite apw1_other by discriminate. }
      eapply wp_conseq; [apply (IH _ h1 (moved d m))| |].
      * apply inv_wr; auto; try discriminate. exact Logic.I.
      * unfold h1. now rewrite apw1_other by discriminate.
      * apply apw1.
      * intros j Hj. destruct (H j (or_intror Hj)) as [A1 (d1 & D1)]. split; [exact A1|]. exists d1.
        unfold h1. now rewrite apw1_other by discriminate.
      * cbv beta. intros n h2 (Q & C & w & W & P). split; [|split; [exact C|exists w; split; [exact W|now rewrite <- EN]]].
        intros l' Hl. rewrite Q by auto. unfold h1. now rewrite apw1_other by congruence.
      * cbv beta. intros _ h2 P. now rewrite <- EN.
    + destruct (count >? 1); [apply wp_fail; reflexivity|]. apply IH; auto. intros j Hj. apply H. now right.
Qed.

Lemma used_val h u : h_mem h FlUmus = Some (VZ u) ->
  used h = if u =? 0 then c_n_quad (h_cfg h) else c_n_quad (h_cfg h) + c_n_umus (h_cfg h).
Proof. intro E. unfold used. rewrite E. now destruct u. Qed.

Lemma mu0_pa h m : inv h -> h_mem h Mu00 = Some (VD m) ->
  wp mu_0_singularity_adjust
     (fun _ h' => tuned h' /\ (forall l, l <> Mu0 -> h_mem h' l = h_mem h l) /\ h_cfg h' = h_cfg h)
     (fun _ h' => pa (node_list h) m 0 m = None) h.
Proof.
  intros I E. unfold mu_0_singularity_adjust. pose proof (i_core _ _ I) as C.
  pose proof (cfg_dims _ _ (k_cfg _ C)) as KC. pose proof (k_good _ C) as KG.
  apply wp_bind. apply wp_cfg. apply wp_bind. eapply wp_rdD; [reflexivity|exact E|].
  apply wp_bind. apply wp_wr; [reflexivity|].
  destruct (flag_val cosd h FlUmus I eq_refl) as (u & EU & HU).
  apply wp_bind. eapply wp_rdZ; [reflexivity|rewrite apw1_other by discriminate; exact EU|].
  apply wp_bind. rewrite <- (used_val h u EU).
  set (h1 := apw [(Mu0, VD m)] h).
  assert (EN : map (node h1) (zseq 0 (used h)) = node_list h).
  { apply map_ext. intro j. unfold node, h1. now rewrite apw1_other by discriminate. }
  eapply wp_conseq; [apply (adjust_pa m)| |].
  - apply inv_wr; auto; try discriminate. exact Logic.I.
  - unfold h1. now rewrite apw1_other by discriminate.
  - apply apw1.
  - intros i Hi. apply in_zseq in Hi. rewrite (used_val h u EU), (de_nq _ _ KC), (de_num _ _ KC) in Hi.
    pose proof (g_num _ KG). split.
    + unfold acch. cbn. apply in_range_iff. destruct (u =? 0); lia.
    + unfold h1. rewrite apw1_other by discriminate. apply (qx_def cosd); auto. rewrite EU. unfold qn. destruct HU as [-> | ->]; cbn in *; lia.
  - cbv beta. intros n h2 (Q & C2 & w & W & P). rewrite EN in P.
    assert (Q' : forall l, l <> Mu0 -> h_mem h2 l = h_mem h l).
    { intros l Hl. rewrite Q by auto. unfold h1. now rewrite apw1_other by congruence. }
    assert (T : forall h3, h_mem h3 = h_mem h2 -> h_cfg h3 = h_cfg h2 -> 
      tuned h3 /\ (forall l, l <> Mu0 -> h_mem h3 l = h_mem h l) /\ h_cfg h3 = h_cfg h).
    { intros h3 M3 C3. split; [|split; [intros; rewrite M3; auto|rewrite C3, C2; reflexivity]].
      exists m, w, n. rewrite M3. split; [rewrite Q'; auto; discriminate|]. split; [exact W|].
      rewrite <- P. f_equal. unfold node_list. 
      assert (EU3 : used h3 = used h). { unfold used. rewrite M3, Q' by discriminate. now rewrite C3, C2. }
      rewrite EU3. apply map_ext. intro j. unfold node. rewrite M3. now rewrite Q' by discriminate. }
    apply wp_when.
    + intros _. apply wp_deps_all. apply T; reflexivity.
    + intros _. apply T; reflexivity.
  - cbv beta. intros e h2 P. now rewrite <- EN.
Qed.

Lemma tuned_post h h' : (forall l, l <> FlMu0 -> h_mem h' l = h_mem h l) -> h_cfg h' = h_cfg h -> tuned h -> tuned h'.
Proof.
  intros Q C (m & v & n & A & B & P). exists m, v, n. rewrite !Q by discriminate. split; [exact A|]. split; [exact B|].
  rewrite <- P. f_equal. unfold node_list. assert (EU : used h' = used h) by (unfold used; rewrite Q, C by discriminate; reflexivity).
  rewrite EU. apply map_ext. intro j. unfold node. now rewrite Q by discriminate.
Qed.

Lemma theta_0_tuned h x : inv h ->
  wp (exec (SetTheta0 x)) (fun r h' => tuned h' /\ h_mem h' Mu00 = Some (VD (cosd x))) (fun _ _ => True) h.
Proof.
  intro I. cbn [HandleModel.exec]. unfold done, set_theta_0. apply wp_bind.
  apply wp_bind. unfold need_opt. apply wp_bind, wp_cfg. apply wp_reject; [intro; exact Logic.I|].
  intro O. apply negb_false_iff in O. apply wp_bind. apply wp_reject; [intro; exact Logic.I|]. intro N.
  apply wp_bind. apply wp_wr; [reflexivity|].
  set (h1 := apw [(Mu00, VD (cosd x))] h).
  assert (I1 : inv h1).
  { apply inv_wr; auto; try discriminate. cbn. apply orb_false_iff in N as [? ?]. now exists x. }
  destruct (flag_val cosd h1 FlUmus I1 eq_refl) as (u & EU & HU).
  apply wp_bind. eapply wp_rdZ; [reflexivity|exact EU|].
  assert (E1 : h_mem h1 Mu00 = Some (VD (cosd x))) by apply apw1.
  apply wp_bind. apply (n_four2_wp cosd); auto.
  - eauto.
  - intros U U1. pose proof (i_core _ _ I1) as C.
    pose proof (cfg_dims _ _ (k_cfg _ C)) as KC. pose proof (k_good _ C) as KG.
    apply (qx_def cosd); auto. rewrite EU. unfold qn. rewrite (de_nq _ _ KC). pose proof (g_nq _ KG).
    destruct HU as [-> | ->]; [discriminate|]. cbn [Z.eqb]. rewrite (de_num _ _ KC) in U1. lia.
  - intros z I2. apply wp_bind. apply wp_wrap. eapply wp_conseq.
    + apply (mu0_pa _ (cosd x)); auto.
    + cbv beta. intros [] h2 (T & Q & C2). apply wp_bind. apply wp_wr; [reflexivity|]. apply wp_deps_all.
      apply wp_ret. split.
      * apply (tuned_post h2); auto. intros l Hl. change (h_mem (apw [(FlMu0, VZ 1)] h2) l = h_mem h2 l). now rewrite apw1_other by congruence.
      * change (h_mem (apw [(FlMu0, VZ 1)] h2) Mu00 = Some (VD (cosd x))). rewrite apw1_other by discriminate.
        rewrite Q by discriminate. now rewrite apw1_other by discriminate.
    + auto.
Qed.

Lemma out_thetas_tuned h x : inv h -> sized h (SetOutThetas x) -> isset h FlMu0 ->
  wp (exec (SetOutThetas x)) (fun r h' => tuned h' /\ used h' = c_n_quad (h_cfg h) + c_n_umus (h_cfg h) /\
        (forall k, 0 <= k < c_n_umus (h_cfg h) -> node h' (c_n_quad (h_cfg h) + k) = cosd (xd x k)) /\
        (forall i, i < c_n_quad (h_cfg h) -> node h' i = node h i)) (fun _ _ => True) h.
Proof.
  intros I SZ FM. cbn in SZ. cbn [HandleModel.exec]. unfold done, set_out_thetas.
  pose proof (i_core _ _ I) as C. pose proof (cfg_dims _ _ (k_cfg _ C)) as KC. pose proof (k_good _ C) as KG.
  pose proof (de_num _ _ KC) as EN. pose proof (de_nq _ _ KC) as EQ. pose proof (g_num _ KG). pose proof (g_nq _ KG).
  apply wp_bind, wp_bind, wp_cfg. apply wp_bind. apply wp_reject; [intro; exact Logic.I|]. intro U0.
  apply wp_bind.
  apply (wp_zfor _ (fun i h' => h' = h /\ forall k, 0 <= k < i -> dlt (xd x k) d_zero || dge (xd x k) d_90 = false)); [lia| | |].
  { split; auto. intros; lia. }
  { intros i h1 Hi (-> & V). apply wp_bind. apply (wp_ua d_zero); [lia|]. apply wp_reject; [intro; exact Logic.I|].
    intro N. split; auto. intros k Hk. destruct (Z.eq_dec k i) as [->|]; [exact N|apply V; lia]. }
  intros h1 (-> & V). apply wp_bind.
  apply (wp_zfor _ (fun i h' => inv h' /\ keepst h h' /\ isset h' FlMu0 /\
     (forall j, j < c_n_quad (h_cfg h) -> h_mem h' (Qx j) = h_mem h (Qx j)) /\
     forall k, 0 <= k < i -> h_mem h' (Qx (c_n_quad (h_cfg h) + k)) = Some (VD (cosd (xd x k))))); [lia| | |].
  { split; auto. split; [apply keepst_refl|]. split; auto. split; auto. intros; lia. }
  { intros i h1 Hi (I1 & K1 & F1 & O1 & V1). apply wp_bind. apply (wp_ua d_zero); [lia|].
    apply wp_wr; [eapply acch_keepst; [exact K1|]; unfold acch; cbn; apply in_range_iff; lia|].
    split; [|split; [exact K1|split; [|split]]].
    - apply inv_wr; auto; try discriminate. cbn. intros _. specialize (V i Hi). apply orb_false_iff in V as [? ?].
      now exists (xd x i).
    - unfold isset. now rewrite apw1_other by discriminate.
    - intros j Hj. rewrite apw1_other; [auto|]. intro Q. injection Q. lia.
    - intros k Hk. destruct (Z.eq_dec k i) as [->|N]; [apply apw1|]. rewrite apw1_other; [apply V1; lia|].
      intro Q. injection Q. lia. }
  intros h1 (I1 & K1 & F1 & O1 & V1). apply wp_bind. apply wp_wr; [reflexivity|].
  set (h2 := apw [(FlUmus, VZ 1)] h1).
  assert (I2 : inv h2).
  { apply inv_wr; auto; try discriminate; [cbn; auto|]. intros _. split; auto.
    intros l' Hf Ha. destruct l'; cbn in Hf; try discriminate Hf.
    destruct (Z.ltb_spec i (c_n_quad (h_alloc h1))); [discriminate|]. cbn in Ha. apply in_range_iff in Ha.
    destruct K1 as (E1 & E2 & E3). rewrite E2 in *.
    specialize (V1 (i - c_n_quad (h_cfg h)) ltac:(lia)).
    replace (c_n_quad (h_cfg h) + (i - c_n_quad (h_cfg h))) with i in V1 by lia. rewrite V1. discriminate. }
  assert (V2 : forall k, 0 <= k < c_n_umus (h_cfg h) -> h_mem h2 (Qx (c_n_quad (h_cfg h) + k)) = Some (VD (cosd (xd x k)))).
  { intros k Hk. unfold h2. rewrite apw1_other by discriminate. auto. }
  assert (EF : h_mem h2 FlMu0 = Some (VZ 1)) by (unfold h2; now rewrite apw1_other by discriminate).
  apply wp_bind. eapply wp_rdZ; [reflexivity|exact EF|].
  assert (M0 : exists m, h_mem h2 Mu00 = Some (VD m)).
  { pose proof (i_flag _ _ I2 Mu00 FlMu0 eq_refl EF eq_refl) as D.
    destruct (h_mem h2 Mu00) as [v|] eqn:E; [|easy]. pose proof (i_typed _ _ I2 _ _ E) as T.
    destruct v; cbn in T; [easy|]. eauto. }
  apply wp_bind. destruct K1 as (E1 & E2 & E3).
  apply (n_four2_wp cosd); auto.
  - intros _ U. change (h_cfg h2) with (h_cfg h1) in *. rewrite E1 in *. exists (cosd (xd x 0)).
    rewrite <- (V2 0) by lia. f_equal. f_equal. lia.
  - intros z I3. set (h3 := apw [(NFour2, VZ z)] h2) in *.
    apply wp_bind. apply wp_when; [|discriminate].
    intros _. destruct M0 as (m & Em).
    apply wp_wrap. eapply wp_conseq; [apply (mu0_pa h3 m)| |]; auto.
    cbv beta. intros [] h4 (T4 & Q4 & C4). apply wp_deps_all. apply wp_ret.
    split; [apply (tuned_post h4); auto|].
    assert (M4 : forall l, l <> Mu0 -> l <> NFour2 -> l <> FlUmus -> h_mem h4 l = h_mem h1 l).
    { intros l A B D. rewrite Q4 by auto. unfold h3, h2. now rewrite !apw1_other by congruence. }
    assert (M5 : h_mem h4 FlUmus = Some (VZ 1)).
    { rewrite Q4 by discriminate. unfold h3. rewrite apw1_other by discriminate. apply apw1. }
    split; [|split].
    + unfold used. change (match h_mem h4 FlUmus with Some (VZ 0) => c_n_quad (h_cfg h4) | _ => c_n_quad (h_cfg h4) + c_n_umus (h_cfg h4) end
        = c_n_quad (h_cfg h) + c_n_umus (h_cfg h)). rewrite M5, C4. change (h_cfg h3) with (h_cfg h1). now rewrite E1.
    + intros k Hk. unfold node. change (match h_mem h4 (Qx (c_n_quad (h_cfg h) + k)) with Some (VD q) => q | _ => d_zero end = cosd (xd x k)).
      rewrite M4 by discriminate. now rewrite V1.
    + intros i Hi. unfold node. change (match h_mem h4 (Qx i) with Some (VD q) => q | _ => d_zero end = match h_mem h (Qx i) with Some (VD q) => q | _ => d_zero end).
      rewrite M4 by discriminate. now rewrite O1.
Qed.

Lemma step_tuned h o ok h' : inv h -> sized h o -> steps cosd acosd h o ok h' ->
  (forall x, (o, ok) <> (SetTheta0 x, false)) -> (forall x, (o, ok) <> (SetOutThetas x, false)) ->
  (isset h FlMu0 -> tuned h) -> isset h' FlMu0 -> tuned h'.
Proof.
  intros I SZ ST N1 N2 T F.
  assert (D : (exists x, o = SetTheta0 x) \/ (exists x, o = SetOutThetas x) \/
              ((forall x, o <> SetTheta0 x) /\ (forall x, o <> SetOutThetas x))).
  { destruct o; try (right; right; split; intros; discriminate); eauto. }
  destruct D as [(x & ->)|[(x & ->)|(M1 & M2)]].
  - destruct ok; [|now destruct (N1 x)]. destruct ST as (v & E).
    pose proof (theta_0_tuned h x I) as W. unfold wp in W. rewrite E in W. apply W.
  - destruct ok; [|now destruct (N2 x)]. destruct ST as (v & E).
    assert (F0 : isset h FlMu0).
    { unfold isset in *. rewrite <- F. symmetry. pose proof (only_exec cosd acosd (SetOutThetas x) h) as W. rewrite E in W.
      now apply W. }
    pose proof (out_thetas_tuned h x I SZ F0) as W. unfold wp in W. rewrite E in W. apply W.
  - assert (Q : forall l, In l [FlMu0; Mu0; Mu00; FlUmus] \/ (exists i, l = Qx i) -> h_mem h' l = h_mem h l).
    { intros l Hl. pose proof (only_exec cosd acosd o h) as W.
      assert (X : tch o l = false).
      { destruct Hl as [[<-|[<-|[<-|[<-|[]]]]]|(i & ->)]; destruct o; try reflexivity;
          try (match goal with H : forall x, SetTheta0 ?a <> _ |- _ => now destruct (H a) end);
          try (match goal with H : forall x, SetOutThetas ?a <> _ |- _ => now destruct (H a) end). }
      destruct ok; destruct ST as (v & E); rewrite E in W; now apply W. }
    assert (C : h_cfg h' = h_cfg h \/ c_n_quad (h_cfg h') = c_n_quad (h_cfg h) /\ c_n_umus (h_cfg h') = c_n_umus (h_cfg h)).
    { right. pose proof (step_inv cosd acosd h o ok h' I SZ ST) as I'.
      pose proof (cfg_dims _ _ (k_cfg _ (i_core _ _ I))) as K. pose proof (cfg_dims _ _ (k_cfg _ (i_core _ _ I'))) as K'.
      pose proof (step_alloc cosd acosd h o ok h' I ST) as EA.
      now rewrite (de_nq _ _ K), (de_nq _ _ K'), (de_num _ _ K), (de_num _ _ K'), EA. }
    assert (F0 : isset h FlMu0) by (unfold isset in *; rewrite <- F; symmetry; apply Q; cbn; auto).
    destruct (T F0) as (m & v & n & A & B & P). exists m, v, n.
    rewrite !Q by (cbn; tauto). split; [exact A|]. split; [exact B|]. rewrite <- P. f_equal. unfold node_list.
    assert (EU : used h' = used h).
    { unfold used. rewrite Q by (cbn; tauto). destruct C as [->|[-> ->]]; reflexivity. }
    rewrite EU. apply map_ext. intro j. unfold node. rewrite Q by eauto. reflexivity.
Qed.

Definition angles_taken (t : list (op * bool)) : Prop :=
  (forall x, ~ In (SetTheta0 x, false) t) /\ (forall x, ~ In (SetOutThetas x, false) t).

Lemma hist_tuned h0 t h : inv h0 -> ~ isset h0 FlMu0 -> hist cosd acosd h0 t h -> angles_taken t -> isset h FlMu0 -> tuned h.
Proof.
  intros I N H. induction H as [|t h o ok h' H IH SZ ST]; intros [A B] F; [easy|].
  apply (step_tuned h o ok h'); auto.
  - eapply hist_inv; eauto.
  - intros x E. apply (A x). left. exact E.
  - intros x E. apply (B x). left. exact E.
  - intro F'. apply IH; auto. split; intros x Hx; [apply (A x)|apply (B x)]; now right.
Qed.
End S.
