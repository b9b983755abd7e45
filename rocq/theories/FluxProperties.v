(** C52: fluxes and mean radiances. *)
From Coq Require Import Reals Bool Arith Lia Lra List.
From Verif Require Import Base DerivsModel DerivsSpec DerivsProofs DerivsProperties DeltaMSpec DeltaMProofs AddingModel AddingSpec AddingMat AddingCalls AddingProperties
  RadianceModel RadianceSpec RadianceProperties SingleProofs BeamProofs EigModel EigSpec EigProperties AtmSpec AtmProperties ScatModel ScatSpec ScatProofs ScatProperties FluxSpec FluxModel FluxProofs FluxOut.
Open Scope R_scope.

(** The handle describes these streams: scalar, the additional directions have no weight. *)
Definition describes_streams (h : handle) (n : nat) (mu w : vec) : Prop :=
  n_stokes h = 1%nat /\ (n_quad h <= n)%nat /\ (forall i, (i < n_quad h)%nat -> h_qx h i = mu i /\ h_qw h i = w i) /\ (forall i, (n_quad h <= i)%nat -> (i < n)%nat -> w i = 0).
(** The level of the atmosphere whose transmittance output level [j] needs for the result to be right *)
Definition at_ends (h : handle) (j l : nat) : Prop := (j = 0%nat /\ l = 0%nat) \/ (j <> 0%nat /\ l = n_layers h).

Lemma scalar_streams : forall h n mu w I, describes_streams h n mu w ->
  radiance_to_mean (n_quad_v h) (qx_v h) (qw_v h) I = mean_of n w I /\ radiance_to_flux (n_quad_v h) (qx_v h) (qw_v h) I = flux_of n mu w I.
Proof.
  intros h n mu w I (E & Le & V & Z). unfold n_quad_v, qx_v, qw_v. rewrite E, Nat.mul_1_r. unfold radiance_to_mean, radiance_to_flux, mean_of, flux_of. rewrite !loop_total.
  assert (forall g, total n (fun i => w i * g i) = total (n_quad h) (fun i => w i * g i)) as T.
  { intro g. replace n with (n_quad h + (n - n_quad h))%nat by lia. apply total_more. intros i A B. rewrite (Z i) by lia. ring. }
  rewrite (T (fun i => I i)), (T (fun i => mu i * I i)).
  rewrite (total_ext (n_quad h) (fun i => h_qw h (i / 1)%nat * I i) (fun i => w i * I i)).
  2:{ intros i Hi. rewrite Nat.div_1_r. rewrite (proj2 (V i Hi)). reflexivity. }
  rewrite (total_ext (n_quad h) (fun i => h_qx h (i / 1)%nat * h_qw h (i / 1)%nat * I i) (fun i => w i * (mu i * I i))).
  2:{ intros i Hi. rewrite Nat.div_1_r. destruct (V i Hi) as [-> ->]. ring. }
  split; [field; exact pi_ne|ring].
Qed.

(** Without polarization the outputs of the first level, if it is the top of the atmosphere, and of the others, if they are the bottom, are the mean radiance and
    the flux of each hemisphere, with the beam on the way down. *)
Theorem C52_outputs : forall h n mu w wm wf wd i_p i_m o j l F m0 b, describes_streams h n mu w -> (j < n_ulevels h)%nat ->
  h_F_0 h = Some F -> h_mu_0 h = Some m0 -> h_btran h l = Some b -> at_ends h j l ->
  let o' := solution h wm wf wd i_p i_m o in
  (wm = true -> upwelling h = true -> mean_p o' j = Some (mean_of n w (i_p j))) /\
  (wm = true -> downwelling h = true -> mean_m o' j = Some (mean_of n w (i_m j) + F * b / (4 * PI))) /\
  (wf = true -> upwelling h = true -> flux_p o' j = Some (flux_of n mu w (i_p j))) /\
  (wf = true -> downwelling h = true -> flux_m o' j = Some (flux_of n mu w (i_m j) + m0 * (F * b))).
Proof.
  intros h n mu w wm wf wd i_p i_m o j l F m0 b D Hj EF EM EB At o'. destruct (solution_all h i_p i_m wm wf wd o j) as (A1 & A2 & A3 & A4 & _).
  fold o' in A1, A2, A3, A4. rewrite A1, A2, A3, A4. unfold pick. apply Nat.ltb_lt in Hj. rewrite Hj.
  assert (beam_level h j = l) as L. { unfold beam_level. destruct At as [[-> ->]|[N ->]]; [reflexivity|]. apply Nat.eqb_neq in N. rewrite N. reflexivity. }
  destruct (scalar_streams h n mu w (i_p j) D) as [P1 P2]. destruct (scalar_streams h n mu w (i_m j) D) as [M1 M2].
  unfold mp, mm, fp, fm, beam_mean, beam_flux. rewrite L, EF, EM, EB, P1, P2, M1, M2. cbn [lift2].
  refine (conj _ (conj _ (conj _ _))); intros -> ->; cbn [andb]; [reflexivity|reflexivity|reflexivity|f_equal; ring].
Qed.
(** What is not asked for or not enabled stays as it was. *)
Theorem C52_untouched : forall h wm wf wd i_p i_m o j, let o' := solution h wm wf wd i_p i_m o in
  ((wm && upwelling h && (j <? n_ulevels h)%nat)%bool = false -> mean_p o' j = mean_p o j) /\ ((wm && downwelling h && (j <? n_ulevels h)%nat)%bool = false -> mean_m o' j = mean_m o j) /\
  ((wf && upwelling h && (j <? n_ulevels h)%nat)%bool = false -> flux_p o' j = flux_p o j) /\ ((wf && downwelling h && (j <? n_ulevels h)%nat)%bool = false -> flux_m o' j = flux_m o j).
Proof.
  intros h wm wf wd i_p i_m o j o'. destruct (solution_all h i_p i_m wm wf wd o j) as (A1 & A2 & A3 & A4 & _). fold o' in A1, A2, A3, A4. rewrite A1, A2, A3, A4. unfold pick.
  refine (conj _ (conj _ (conj _ _))); intros ->; reflexivity.
Qed.
(** Nothing ever writes the divergence of the flux, or a derivative of any of these outputs. *)
Theorem C52_never_written_refuted : forall h wm wf wd i_p i_m o, let o' := solution h wm wf wd i_p i_m o in
  flux_div o' = flux_div o /\ mean_p_l o' = mean_p_l o /\ mean_m_l o' = mean_m_l o /\ flux_p_l o' = flux_p_l o /\ flux_m_l o' = flux_m_l o /\ flux_div_l o' = flux_div_l o.
Proof. intros h wm wf wd i_p i_m o o'. destruct (solution_all h i_p i_m wm wf wd o 0%nat) as (_ & _ & _ & _ & A). exact A. Qed.
(** An output level inside the atmosphere, or a first one that is not the top: the beam is the one of another level. *)
Theorem C52_level_error_refuted : forall h n mu w wm wd i_p i_m o j l F m0 b b', describes_streams h n mu w -> (j < n_ulevels h)%nat ->
  h_F_0 h = Some F -> h_mu_0 h = Some m0 -> h_btran h l = Some b -> h_btran h (if (j =? 0)%nat then 0%nat else n_layers h) = Some b' -> downwelling h = true ->
  exists v, flux_m (solution h wm true wd i_p i_m o) j = Some v /\ v - (flux_of n mu w (i_m j) + m0 * (F * b)) = m0 * F * (b' - b).
Proof.
  intros h n mu w wm wd i_p i_m o j l F m0 b b' D Hj EF EM EB EB' Dn. destruct (solution_all h i_p i_m wm true wd o j) as (_ & _ & _ & A4 & _).
  cbv zeta in A4. rewrite A4. unfold pick. apply Nat.ltb_lt in Hj. rewrite Hj, Dn. cbn [andb]. unfold fm, beam_flux, beam_level. rewrite EF, EM, EB'. cbn [lift2].
  destruct (scalar_streams h n mu w (i_m j) D) as [_ ->]. eexists. split; [reflexivity|ring].
Qed.
(** Without the sun as a source nothing has set the flux of the beam, and it is used all the same. *)
Theorem C52_thermal_refuted : forall h wm wd i_p i_m o j, (j < n_ulevels h)%nat -> downwelling h = true -> h_F_0 h = None ->
  flux_m (solution h wm true wd i_p i_m o) j = None /\ mean_m (solution h true wm wd i_p i_m o) j = None.
Proof.
  intros h wm wd i_p i_m o j Hj Dn E. destruct (solution_all h i_p i_m wm true wd o j) as (_ & _ & _ & A & _). destruct (solution_all h i_p i_m true wm wd o j) as (_ & B & _).
  cbv zeta in A, B. rewrite A, B. unfold pick. apply Nat.ltb_lt in Hj. rewrite Hj, Dn. cbn [andb]. unfold fm, mm, beam_flux, beam_mean. rewrite E. split; reflexivity.
Qed.
(** With polarization all Stokes components are added up as if they were radiances. *)
Theorem C52_vector_refuted : exists h i_p i_p' o u v, n_stokes h = 4%nat /\ n_quad h = 1%nat /\
  (forall j s, (s < n_quad h)%nat -> i_p j (s * n_stokes h)%nat = i_p' j (s * n_stokes h)%nat) /\
  flux_p (solution h false true false i_p i_p o) 0 = Some u /\ flux_p (solution h false true false i_p' i_p o) 0 = Some v /\ u <> v.
Proof.
  pose (h := {| n_quad := 1; n_stokes := 4; n_layers := 1; n_ulevels := 2; upwelling := true; downwelling := true; h_qx := fun _ => 1; h_qw := fun _ => 1;
    h_F_0 := Some 0; h_mu_0 := Some 1; h_btran := fun _ => Some 1 |}).
  pose (none := fun _ : nat => @None R).
  pose (o := {| mean_p := none; mean_m := none; flux_p := none; flux_m := none; flux_div := none; mean_p_l := fun _ => none; mean_m_l := fun _ => none;
    flux_p_l := fun _ => none; flux_m_l := fun _ => none; flux_div_l := fun _ => none |}).
  exists h, (fun _ i => if (i =? 0)%nat then 1 else 0), (fun _ i => if (i <? 2)%nat then 1 else 0), o.
  do 2 eexists. refine (conj eq_refl (conj eq_refl (conj _ (conj eq_refl (conj eq_refl _))))).
  - intros j s Hs. cbn [n_quad h] in Hs. replace s with 0%nat by lia. reflexivity.
  - unfold radiance_to_flux, n_quad_v. cbn. pose proof PI_RGT_0. lra.
Qed.

(* ------------------------------------------------------------------------- *)
(** The budget: what disappears from the net flux has been absorbed. *)
Theorem C52_divergence : forall n solar thermal x mu_0 Ip Im t, fair n solar thermal x -> (solar = true -> parallel mu_0 x) -> lit n solar thermal x Ip Im -> 0 <= t <= ltau x ->
  derivable_pt_lim (net n solar mu_0 x Ip Im) t (absorbed n solar thermal x Ip Im t).
Proof.
  intros n solar thermal x mu_0 Ip Im t Fa Pa L Ht. eapply dl_eq; [apply (net_deriv n solar thermal x mu_0 Fa Ip Im t L Ht)|].
  unfold lost. destruct solar; [rewrite (Pa eq_refl)|]; unfold beam_at; ring.
Qed.
Definition layers_fair (n m : nat) (solar thermal : bool) (xs : nat -> slab) : Prop :=
  directions m xs /\ (solar = true -> beam_goes_on m xs) /\ forall k, (k <= m)%nat -> fair n solar thermal (xs k) /\ 0 <= ltau (xs k) /\ (solar = true -> as_0 (xs k) <> 0).
(** From the top of the atmosphere to the bottom of layer [k]; the second sum is what the attenuation along other paths than straight ones through parallel planes gains or loses. *)
Theorem C52_budget : forall n m solar thermal xs mu_0 t Ip Im H k, layers_fair n m solar thermal xs -> between n m solar thermal xs t Ip Im -> integrals n m solar thermal xs Ip Im H -> (k <= m)%nat ->
  net n solar mu_0 (xs k) (Ip k) (Im k) (ltau (xs k)) - net n solar mu_0 (xs 0%nat) (Ip 0%nat) (Im 0%nat) 0 =
  total (S k) (fun k => H k (ltau (xs k)) - H k 0) + total (S k) (fun k => (mu_0 - 1 / as_0 (xs k)) * (beam_at solar (xs k) 0 - beam_at solar (xs k) (ltau (xs k)))).
Proof.
  intros n m solar thermal xs mu_0 t Ip Im H k (Di & Go & Fa) Be In Hk.
  rewrite (stack_budget n solar thermal xs mu_0 m t Ip Im Di Be Go Fa H In k Hk). rewrite total_plus. reflexivity.
Qed.
Theorem C52_parallel_budget : forall n m solar thermal xs mu_0 t Ip Im H k, layers_fair n m solar thermal xs -> (forall k, (k <= m)%nat -> solar = true -> parallel mu_0 (xs k)) ->
  between n m solar thermal xs t Ip Im -> integrals n m solar thermal xs Ip Im H -> (k <= m)%nat ->
  net n solar mu_0 (xs k) (Ip k) (Im k) (ltau (xs k)) - net n solar mu_0 (xs 0%nat) (Ip 0%nat) (Im 0%nat) 0 = total (S k) (fun k => H k (ltau (xs k)) - H k 0).
Proof.
  intros n m solar thermal xs mu_0 t Ip Im H k Fa Pa Be In Hk. rewrite (C52_budget n m solar thermal xs mu_0 t Ip Im H k Fa Be In Hk).
  rewrite (total_zero (S k) (fun k => (mu_0 - 1 / as_0 (xs k)) * _)); [ring|]. intros i Hi. destruct solar; [|unfold beam_at; ring].
  pose proof (Pa i ltac:(lia) eq_refl) as P. unfold parallel in P. destruct Fa as (_ & _ & Fa). destruct (Fa i ltac:(lia)) as (_ & _ & As). specialize (As eq_refl).
  replace (mu_0 - 1 / as_0 (xs i)) with ((mu_0 * as_0 (xs i) - 1) / as_0 (xs i)) by (field; exact As). rewrite P. unfold Rdiv. ring.
Qed.
(** Without absorption the net flux is the same at every level. *)
Theorem C52_conserved : forall n m solar thermal xs mu_0 t Ip Im k, layers_fair n m solar thermal xs -> (forall k, (k <= m)%nat -> solar = true -> parallel mu_0 (xs k)) ->
  between n m solar thermal xs t Ip Im -> (forall k, (k <= m)%nat -> omega (xs k) = 1) -> (k <= m)%nat ->
  net n solar mu_0 (xs k) (Ip k) (Im k) (ltau (xs k)) = net n solar mu_0 (xs 0%nat) (Ip 0%nat) (Im 0%nat) 0.
Proof.
  intros n m solar thermal xs mu_0 t Ip Im k Fa Pa Be Om Hk. apply Rminus_diag_uniq. rewrite (C52_parallel_budget n m solar thermal xs mu_0 t Ip Im (fun _ _ => 0) k Fa Pa Be); [|intros j s Hj Hs|exact Hk].
  - apply total_zero. intros. ring.
  - eapply dl_eq; [apply dl_const|]. unfold absorbed. rewrite (Om j Hj). ring.
Qed.
(** Without emission the net flux downwards never grows on the way down, for light that is not negative. *)
Theorem C52_dissipates : forall n m solar xs mu_0 t Ip Im k, layers_fair n m solar false xs -> (forall k, (k <= m)%nat -> solar = true -> parallel mu_0 (xs k)) ->
  between n m solar false xs t Ip Im -> (k <= m)%nat ->
  (forall k, (k <= m)%nat -> omega (xs k) <= 1 /\ 0 <= flux0 (xs k) * btran (xs k) /\ forall i, (i < n)%nat -> 0 <= qw (xs k) i) ->
  (forall k i s, (k <= m)%nat -> (i < n)%nat -> 0 <= s <= ltau (xs k) -> 0 <= Ip k i s /\ 0 <= Im k i s) ->
  - net n solar mu_0 (xs k) (Ip k) (Im k) (ltau (xs k)) <= - net n solar mu_0 (xs 0%nat) (Ip 0%nat) (Im 0%nat) 0.
Proof.
  intros n m solar xs mu_0 t Ip Im k (Di & Go & Fa) Pa Be Hk Ok Nn. apply Ropp_le_contravar.
  assert (forall k, (k <= m)%nat -> net n solar mu_0 (xs k) (Ip k) (Im k) 0 <= net n solar mu_0 (xs k) (Ip k) (Im k) (ltau (xs k))) as Step.
  { intros q Hq. destruct (Fa q Hq) as (Fq & LP & As). destruct (Ok q Hq) as (Om & Fl & W).
    apply (grows _ (absorbed n solar false (xs q) (Ip q) (Im q)) _ LP).
    - intros s Hs. apply C52_divergence; [exact Fq|exact (Pa q Hq)|apply Be, Hq|exact Hs].
    - intros s Hs. unfold absorbed, emission_at, mean_radiance, mean_of, beam_at. pose proof PI_RGT_0 as PP.
      assert (forall B : beam, (forall i, (i < n)%nat -> 0 <= B i s) -> 0 <= total n (fun i => qw (xs q) i * B i s)) as T.
      { intros B HB. apply AddingDeriv.total_nonneg. intros i Hi. apply Rmult_le_pos; [apply W|apply HB]; exact Hi. }
      pose proof (T (Ip q) (fun i Hi => proj1 (Nn q i s Hq Hi Hs))) as T1. pose proof (T (Im q) (fun i Hi => proj2 (Nn q i s Hq Hi Hs))) as T2.
      assert (0 <= (if solar then flux0 (xs q) * (btran (xs q) * exp (- as_0 (xs q) * s)) else 0)) as T3.
      { destruct solar; [|lra]. rewrite <- Rmult_assoc. apply Rmult_le_pos; [exact Fl|left; apply exp_pos]. }
      apply Rmult_le_pos; [apply Rmult_le_pos; lra|]. rewrite Rminus_0_r.
      assert (forall a, 0 <= a -> 0 <= a / (4 * PI)) as Dv. { intros a Ha. apply Rmult_le_pos; [exact Ha|]. left. apply Rinv_0_lt_compat. lra. }
      repeat apply Rplus_le_le_0_compat; apply Dv; try assumption; apply Rmult_le_pos; (assumption || lra). }
  induction k as [|k IH]; [apply Step; lia|]. eapply Rle_trans; [apply IH; lia|].
  rewrite <- (joined n solar false xs mu_0 m t Ip Im Di Be Go k) by lia. apply Step. exact Hk.
Qed.

(** The phase matrices and vectors of order 0 meet the requirement for a phase function normalized to 1, with a quadrature that integrates the polynomials it has. *)
Theorem C52_fair : forall n n_coef n_coef2 chi mu_0 Y Y0 solar thermal x, (0 < n_coef)%nat -> (n_coef <= n_coef2)%nat -> integrates n n_coef (qx x) (qw x) ->
  zeroth x = true -> (forall i, (i < n)%nat -> qx x i <> 0 /\ holds 0 n_coef2 (qx x i) (Y i)) -> holds 0 n_coef2 (- mu_0) Y0 -> chi 0%nat = 1 ->
  P_pp x = fst (build_phase_mats 0 n_coef Y Y chi) -> P_mp x = snd (build_phase_mats 0 n_coef Y Y chi) ->
  Q_mm x = fst (phase_vecs_get 0 n_coef Y Y0 chi) -> Q_pm x = snd (phase_vecs_get 0 n_coef Y Y0 chi) ->
  fair n solar thermal x.
Proof.
  intros n nc n2 chi mu_0 Y Y0 solar thermal x Pos Le Int Z H H0 One E1 E2 E3 E4. refine (conj Z (conj _ (conj _ (conj _ _)))).
  - intros i Hi. apply H, Hi.
  - intros j Hj. rewrite E1, E2. rewrite (total_ext n _ (fun i => qw x i * (fst (build_phase_mats 0 nc Y Y chi) j i + snd (build_phase_mats 0 nc Y Y chi) j i))).
    + rewrite (C50_conserves n nc n2 chi (qx x) (qw x) Y Y j (qx x j) Pos Le Int) by (intros; apply H; assumption). rewrite One. ring.
    + intros i Hi. destruct (C50_reciprocal 0 nc n2 chi (qx x) Y i j ltac:(lia) Le (proj2 (H i Hi)) (proj2 (H j Hj))) as [-> ->]. reflexivity.
  - intros _. rewrite E3, E4. rewrite (total_ext n _ (fun i => qw x i * (fst (build_phase_mats 0 nc (fun _ => Y0) Y chi) 0%nat i + snd (build_phase_mats 0 nc (fun _ => Y0) Y chi) 0%nat i))) by reflexivity.
    rewrite (C50_conserves n nc n2 chi (qx x) (qw x) (fun _ => Y0) Y 0%nat (- mu_0) Pos Le Int H0) by (intros; apply H; assumption). rewrite One. ring.
  - intros _. rewrite (total_ext n _ (fun j => qw x j * legendre 0 (qx x j))) by (intros; cbn [legendre]; ring). apply (Int 0%nat Pos eq_refl).
Qed.

(** One stream, two layers that absorb nothing, light that satisfies the equation: the beam of mu_0 = 1/2. *)
Definition clean (k : nat) : slab := {| qx := fun _ => 1; qw := fun _ => 1; zeroth := true; flux0 := 4 * PI; omega := 1; ltau := 1; as_0 := 2; atran := exp (- 2 * 1);
  btran := exp (- 2 * INR k); planck0 := 0; planck1 := 0; P_pp := fun _ _ => 1; P_mp := fun _ _ => 1; Q_mm := fun _ => 1; Q_pm := fun _ => 1 |}.
Definition up_light (k : nat) : beam := fun _ t => 1 + 1/4 * exp (- 2 * (INR k + t)).
Definition down_light (k : nat) : beam := fun _ t => 1 + - (3/4) * exp (- 2 * (INR k + t)).
Lemma clean_lit : forall k, lit 1 true false (clean k) (up_light k) (down_light k).
Proof.
  intros k i t _ _. cbn [clean qx qw zeroth flux0 omega ltau as_0 btran planck0 planck1 P_pp P_mp Q_mm Q_pm]. unfold scattered, source. cbn [total].
  assert (forall a c, derivable_pt_lim (fun s => a + c * exp (- 2 * (INR k + s))) t (c * (- 2 * exp (- 2 * (INR k + t))))) as D.
  { intros a c. eapply dl_eq; [apply dl_plus; [apply dl_const|apply dl_scal, (dl_exp (fun s => - 2 * (INR k + s))), dl_scal, dl_plus; [apply dl_const|apply dl_id]]|cbv beta; ring]. }
  assert (exp (- 2 * INR k) * exp (- (2) * t) = exp (- 2 * (INR k + t))) as E by (rewrite <- exp_plus; f_equal; ring).
  rewrite E. unfold up_light, down_light. set (e := exp (- 2 * (INR k + t))) in *. split.
  - eapply dl_eq; [apply D|]. field. exact pi_ne.
  - eapply dl_eq; [apply D|]. field. exact pi_ne.
Qed.
Lemma clean_between : between 1 1 true false clean (fun _ => 1 / 4) up_light down_light.
Proof.
  refine (conj _ (conj _ _)).
  - intros k _. apply clean_lit.
  - intros k i _ _. unfold up_light, down_light. cbn [clean ltau]. rewrite S_INR, Rplus_0_r. split; reflexivity.
  - intros i _. unfold down_light. cbn [INR]. rewrite Rplus_0_r, Rmult_0_r, exp_0. lra.
Qed.
Lemma clean_fair : layers_fair 1 1 true false clean.
Proof.
  refine (conj _ (conj _ _)).
  - intros k _. split; reflexivity.
  - intros _ k _. cbn [clean btran as_0 ltau flux0]. rewrite S_INR, <- exp_plus. split; [f_equal; ring|reflexivity].
  - intros k _. refine (conj _ (conj _ _)); [|cbn [clean ltau]; lra|intros _; cbn [clean as_0]; lra].
    refine (conj eq_refl (conj _ (conj _ (conj _ _)))); cbn [clean qx qw P_pp P_mp Q_pm Q_mm total]; intros; (lra || discriminate).
Qed.
Example C52_conserved_case : forall k, (k <= 1)%nat ->
  net 1 true (1/2) (clean k) (up_light k) (down_light k) (ltau (clean k)) = net 1 true (1/2) (clean 0) (up_light 0) (down_light 0) 0 /\ parallel (1/2) (clean k).
Proof.
  intros k Hk. split; [|unfold parallel; cbn [clean as_0]; lra].
  apply (C52_conserved 1 1 true false clean (1/2) (fun _ => 1/4) up_light down_light k clean_fair); [|exact clean_between|reflexivity|exact Hk].
  intros; unfold parallel; cbn [clean as_0]; lra.
Qed.
Example C52_dissipates_case : forall k i s, (k <= 1)%nat -> 0 <= s <= ltau (clean k) -> 0 <= up_light k i s /\ 0 <= down_light k i s /\ 0 <= flux0 (clean k) * btran (clean k).
Proof.
  intros k i s Hk Hs. cbn [clean ltau flux0 btran] in *. unfold up_light, down_light. pose proof PI_RGT_0. pose proof (exp_pos (- 2 * (INR k + s))). pose proof (exp_pos (- 2 * INR k)).
  assert (exp (- 2 * (INR k + s)) <= exp 0). { pose proof (pos_INR k). destruct (Req_dec (- 2 * (INR k + s)) 0) as [->|N]; [lra|]. left. apply exp_increasing. lra. }
  rewrite exp_0 in *. split; [|split]; [lra|lra|]. apply Rmult_le_pos; lra.
Qed.
(** With other slant factors than 1 / mu_0, as in spherical shells, an atmosphere that absorbs nothing gains or loses light. *)
Theorem C52_spherical_refuted : exists xs Ip Im t mu_0, layers_fair 1 1 true false xs /\ between 1 1 true false xs t Ip Im /\ (forall k, omega (xs k) = 1) /\ 0 < mu_0 <= 1 /\
  (forall k, (k <= 1)%nat -> 1 <= as_0 (xs k)) /\
  net 1 true mu_0 (xs 1%nat) (Ip 1%nat) (Im 1%nat) (ltau (xs 1%nat)) <> net 1 true mu_0 (xs 0%nat) (Ip 0%nat) (Im 0%nat) 0.
Proof.
  exists clean, up_light, down_light, (fun _ => 1/4), (1/4). refine (conj clean_fair (conj clean_between (conj (fun _ => eq_refl) (conj _ (conj _ _))))); [lra|intros; cbn [clean as_0]; lra|].
  unfold net, flux_of, beam_at, up_light, down_light. cbn [clean qx qw total ltau flux0 btran as_0 INR]. rewrite !Rplus_0_r, !Rmult_0_r, !exp_0, <- exp_plus.
  replace (- 2 * 1 + - (2) * 1) with (- 2 * (1 + 1)) by ring. set (e := exp (- 2 * (1 + 1))).
  assert (e < 1) as L. { unfold e. pose proof (exp_increasing (- 2 * (1 + 1)) 0 ltac:(lra)) as L. rewrite exp_0 in L. exact L. }
  pose proof PI_RGT_0. intro E. apply Rminus_diag_eq in E. assert (0 < PI * (1 - e)) as P by (apply Rmult_lt_0_compat; lra).
  match type of E with ?A = _ => replace A with (- (PI * (1 - e))) in E by field end. lra.
Qed.
(** The level between the two layers: the same atmosphere, whose net flux is nothing at every level, and what the call reports. *)
Definition clean_handle : handle := {| n_quad := 1; n_stokes := 1; n_layers := 2; n_ulevels := 3; upwelling := true; downwelling := true; h_qx := fun _ => 1; h_qw := fun _ => 1;
  h_F_0 := Some (4 * PI); h_mu_0 := Some (1/2); h_btran := fun k => Some (exp (- 2 * INR k)) |}.
Definition at_level (B : nat -> beam) (l : nat) : vec := fun i => if (l =? 0)%nat then B 0%nat i 0 else B (l - 1)%nat i 1.
Theorem C52_inside_refuted : forall o, let o' := solution clean_handle false true false (at_level up_light) (at_level down_light) o in
  (exists v, flux_p o' 0 = Some v /\ flux_m o' 0 = Some v) /\ (exists v, flux_p o' 2 = Some v /\ flux_m o' 2 = Some v) /\
  (exists u v, flux_p o' 1 = Some u /\ flux_m o' 1 = Some v /\ u <> v).
Proof.
  intros o o'.
  assert (forall j, (j < 3)%nat -> flux_p o' j = Some (2 * PI * at_level up_light j 0%nat) /\ flux_m o' j = Some (2 * PI * at_level down_light j 0%nat + 2 * PI * exp (- 2 * INR (if (j =? 0)%nat then 0%nat else 2%nat)))) as V.
  { intros j Hj. destruct (solution_all clean_handle (at_level up_light) (at_level down_light) false true false o j) as (_ & _ & A3 & A4 & _). fold o' in A3, A4. rewrite A3, A4. unfold pick. cbn [n_ulevels clean_handle].
    apply Nat.ltb_lt in Hj. rewrite Hj. cbn [andb upwelling downwelling clean_handle]. unfold fp, fm, beam_flux, beam_level, radiance_to_flux, n_quad_v, qx_v, qw_v.
    cbn [n_layers n_quad n_stokes h_qx h_qw h_F_0 h_mu_0 h_btran clean_handle lift2 Nat.mul Nat.add loop]. split; f_equal; field. }
  assert (forall k, 0 < exp (- 2 * INR (S k)) < exp (- 2 * INR k)) as Ex. { intro k. split; [apply exp_pos|]. apply exp_increasing. rewrite S_INR. lra. }
  pose proof PI_RGT_0 as PP. refine (conj _ (conj _ _)).
  - destruct (V 0%nat ltac:(lia)) as [-> ->]. eexists. split; [reflexivity|]. f_equal. unfold at_level, up_light, down_light. cbn [Nat.eqb INR]. rewrite Rplus_0_r. lra.
  - destruct (V 2%nat ltac:(lia)) as [-> ->]. eexists. split; [reflexivity|]. f_equal. unfold at_level, up_light, down_light. cbn [Nat.eqb Nat.sub INR]. lra.
  - destruct (V 1%nat ltac:(lia)) as [-> ->]. do 2 eexists. split; [reflexivity|split; [reflexivity|]]. unfold at_level, up_light, down_light. cbn [Nat.eqb Nat.sub]. pose proof (Ex 1%nat) as E1. cbn [INR] in *. rewrite Rplus_0_l.
    intro E. apply Rminus_diag_eq in E.
    assert (0 < 2 * PI * (exp (- 2 * 1) - exp (- 2 * (1 + 1)))) as P by (apply Rmult_lt_0_compat; lra).
    match type of E with ?A = _ => replace A with (2 * PI * (exp (- 2 * 1) - exp (- 2 * (1 + 1)))) in E by field end. lra.
Qed.

Print Assumptions C52_outputs.
Print Assumptions C52_untouched.
Print Assumptions C52_never_written_refuted.
Print Assumptions C52_level_error_refuted.
Print Assumptions C52_thermal_refuted.
Print Assumptions C52_vector_refuted.
Print Assumptions C52_divergence.
Print Assumptions C52_budget.
Print Assumptions C52_parallel_budget.
Print Assumptions C52_conserved.
Print Assumptions C52_dissipates.
Print Assumptions C52_fair.
Print Assumptions C52_spherical_refuted.
Print Assumptions C52_inside_refuted.
