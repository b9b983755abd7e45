(** The reflection vectors and matrices are the coefficients of the surface, and their derivatives. *)
From Coq Require Import Reals Lra List Arith Bool Lia.
From Verif Require Import BrdfSpec BrdfModel BrdfKernels BrdfProofs DeltaMProofs SingleProofs.
Import ListNotations.
Open Scope R_scope.

Lemma upto_sum : forall n f, upto n f = sum f (seq 0 n).
Proof.
  induction n as [|n IH]; intro f; [reflexivity|]. cbn [upto]. rewrite IH, seq_S. cbn [plus]. generalize (seq 0 n). intro l. induction l as [|a l IHl]; cbn; [ring|].
  unfold sum in IHl. rewrite <- IHl. ring.
Qed.
Lemma sum_cons' : forall A (f : A -> R) a l, sum f (a :: l) = f a + sum f l. Proof. reflexivity. Qed.
Lemma nadd_assoc : forall a b c, nadd (nadd a b) c = nadd a (nadd b c).
Proof. intros [a|] [b|] [c|]; cbn; try reflexivity. f_equal. ring. Qed.
Lemma nadd_0_r : forall a, nadd a (Some 0) = a.
Proof. intros [a|]; cbn; [f_equal; ring|reflexivity]. Qed.
Lemma sky_acos : forall q, 0 < q <= 1 -> from_sky (acos q).
Proof.
  intros q H. split; [apply acos_bound|]. rewrite acos_asin by lra. assert (0 < asin q); [|lra].
  destruct (asin_bound q) as [A B]. apply Rnot_le_lt. intro X. pose proof PI_RGT_0.
  assert (sin (asin q) <= 0) as Y. { destruct X as [X| ->]; [left; apply sin_lt_0_var; lra|rewrite sin_0; lra]. } rewrite sin_asin in Y by lra. lra.
Qed.
Lemma cos_sky : forall q, 0 < q <= 1 -> cos (acos q) = q.
Proof. intros q H. apply cos_acos. lra. Qed.

(** An entry of the handle and the term that it stands for *)
Inductive describes (g : geometry) (e : entry) : term -> Prop :=
| d_lambertian : kind e = Lambertian -> describes g e (Flat (ampfac e))
| d_direct : kind e = Direct_and_diffuse ->
    describes g e (Flat (ampfac e * match g with U0 => params e 0%nat | Q0 => params e 1%nat | UQ => params e 2%nat | QQ => params e 3%nat end))
| d_shape : forall s, shape_of e = Some s -> sensible s -> describes g e (Turning (ampfac e) (brdf s))
| d_user : forall f f_l F, kind e = User_defined f f_l ->
    (forall ti tr phi ph, from_sky ti -> from_sky tr -> 0 <= phi <= PI -> ph = phi \/ ph = - phi -> f g (ang ti) (ang tr) (azimuth_of phi) ph (params e) = Some (F ti tr phi)) ->
    describes g e (Turning (ampfac e) F).

Lemma dl_same : forall f g x d, (forall y, f y = g y) -> derivable_pt_lim f x d -> derivable_pt_lim g x d.
Proof. intros f g x d E H eps He. destruct (H eps He) as [del Hd]. exists del. intros h Hh Hs. rewrite <- !E. apply Hd; assumption. Qed.
Lemma dl_mult_const : forall f x d c, derivable_pt_lim f x d -> derivable_pt_lim (fun y => f y * c) x (d * c).
Proof. intros f x d c H. apply (dl_same (fun y => c * f y)); [intro; ring|]. rewrite (Rmult_comm d c). apply dl_scal, H. Qed.

Section Reflects.
Variables (qx : nat -> R) (nk : nat) (kqx kqw : nat -> R) (geom : geometry) (n_derivs : nat) (derivs : nat -> bool).
Hypothesis Hk : forall k, (k < nk)%nat -> 0 <= kqx k <= PI.
Notation step := (evaluate qx kqx geom n_derivs derivs).
Notation run cells e := (fold_left (step e) (visits nk kqx e cells)).
(** what a term contributes to row r of kernel_f *)
Definition node_of (r : nat) : R := if (r <=? nk)%nat then kqx (r - 1)%nat else kqx (r - nk - 1)%nat.
Definition row_of (r : nat) (ti tr : R) (t : term) : R := match t with
  | Flat a => if (r =? 0)%nat then a else 0
  | Turning a f => if (r =? 0)%nat then 0 else a * f ti tr (node_of r)
  end.
Lemma node_plus : forall k, (k < nk)%nat -> node_of (k + 1) = kqx k.
Proof. intros k H. unfold node_of. destruct (Nat.leb_spec (k + 1) nk); [|lia]. f_equal. lia. Qed.
Lemma node_minus : forall k, node_of (nk + k + 1) = kqx k.
Proof. intros k. unfold node_of. destruct (Nat.leb_spec (nk + k + 1) nk); [lia|]. f_equal. lia. Qed.
Lemma node_range : forall r, (0 < r <= 2 * nk)%nat -> 0 <= node_of r <= PI.
Proof. intros r H. unfold node_of. destruct (Nat.leb_spec r nk); apply Hk; lia. Qed.
Lemma node_visit : forall r c, (r =? 0)%nat = false ->
  kqx (point (visit_at nk kqx r c)) = node_of r /\ (azim (visit_at nk kqx r c) = node_of r \/ azim (visit_at nk kqx r c) = - node_of r).
Proof. intros r c H. unfold visit_at, node_of. rewrite H. destruct (r <=? nk)%nat; cbn [point azim]; auto. Qed.
Definition lit (c : cell) : Prop := 0 < qx (from_dir c) <= 1 /\ 0 < qx (to_dir c) <= 1.
Notation inc c := (acos (qx (from_dir c))).
Notation ref c := (acos (qx (to_dir c))).

Lemma value_shape : forall e s r c, shape_of e = Some s -> sensible s -> lit c -> (r <= 2 * nk)%nat -> (r =? 0)%nat = false ->
  value qx kqx geom e (visit_at nk kqx r c) = Some (brdf s (inc c) (ref c) (node_of r)).
Proof.
  intros e s r c Sh Se (Li & Lr) Hr Z. destruct (node_visit r c Z) as [P Q]. apply Nat.eqb_neq in Z. pose proof (node_range r ltac:(lia)) as B.
  rewrite (value_exact qx kqx geom e _ s (inc c) (ref c) Sh Se); [rewrite P; reflexivity|apply sky_acos, Li|apply sky_acos, Lr| | |rewrite P; exact B|rewrite P; exact Q].
  - rewrite visit_at_spot. symmetry. apply cos_sky, Li.
  - rewrite visit_at_spot. symmetry. apply cos_sky, Lr.
Qed.
Lemma user_call : forall (h : angle -> angle -> num) c, lit c ->
  angle_of (qx (from_dir c)) (fun i => angle_of (qx (to_dir c)) (fun j => h i j)) = h (ang (inc c)) (ang (ref c)).
Proof.
  intros h c (Li & Lr). pose proof (angle_sky (inc c) (fun i => angle_of (qx (to_dir c)) (fun j => h i j)) (sky_acos _ Li)) as E. rewrite (cos_sky _ Li) in E. rewrite E.
  pose proof (angle_sky (ref c) (fun j => h (ang (inc c)) j) (sky_acos _ Lr)) as E'. rewrite (cos_sky _ Lr) in E'. exact E'.
Qed.
Lemma value_user : forall e f f_l F r c, kind e = User_defined f f_l ->
  (forall ti tr phi ph, from_sky ti -> from_sky tr -> 0 <= phi <= PI -> ph = phi \/ ph = - phi -> f geom (ang ti) (ang tr) (azimuth_of phi) ph (params e) = Some (F ti tr phi)) ->
  lit c -> (r <= 2 * nk)%nat -> (r =? 0)%nat = false -> value qx kqx geom e (visit_at nk kqx r c) = Some (F (inc c) (ref c) (node_of r)).
Proof.
  intros e f fl F r c K H L Hr Z. destruct (node_visit r c Z) as [P Q]. apply Nat.eqb_neq in Z. pose proof (node_range r ltac:(lia)) as B.
  unfold value. rewrite K, visit_at_spot. cbv zeta. rewrite (user_call (fun i j => f geom i j _ _ _) c L). rewrite P. destruct L. apply H; auto using sky_acos.
Qed.
Lemma describes_value : forall e t r c, describes geom e t -> lit c -> (r <= 2 * nk)%nat -> active e r = true ->
  nmul (value qx kqx geom e (visit_at nk kqx r c)) (Some (ampfac e)) = Some (row_of r (inc c) (ref c) t).
Proof.
  intros e t r c D (Li & Lr) Hr A. unfold active in A. apply eqb_prop in A. destruct D as [K|K|s Sh Se|f fl F K H].
  - rewrite K in A. cbn in A. unfold value. rewrite K. cbn. destruct (r =? 0)%nat; [|discriminate]. f_equal. ring.
  - rewrite K in A. cbn in A. unfold value. rewrite K. cbn. destruct (r =? 0)%nat; [|discriminate]. f_equal. unfold direct_diffuse_param. destruct geom; ring.
  - assert (needs_fourier (kind e) = true) as N by (unfold shape_of in Sh; destruct (kind e); try discriminate; reflexivity). rewrite N in A.
    destruct (r =? 0)%nat eqn:Z; [discriminate|]. destruct (node_visit r c Z) as [P Q]. apply Nat.eqb_neq in Z. pose proof (node_range r ltac:(lia)) as B.
    apply Nat.eqb_neq in Z. rewrite (value_shape e s r c Sh Se (conj Li Lr) Hr Z). cbn [nmul bind row_of]. rewrite Z. f_equal. ring.
  - assert (needs_fourier (kind e) = true) as N by (rewrite K; reflexivity). rewrite N in A.
    destruct (r =? 0)%nat eqn:Z; [discriminate|]. destruct (node_visit r c Z) as [P Q]. apply Nat.eqb_neq in Z. pose proof (node_range r ltac:(lia)) as B.
    apply Nat.eqb_neq in Z. rewrite (value_user e f fl F r c K H (conj Li Lr) Hr Z). cbn [nmul bind row_of]. rewrite Z. f_equal. ring.
Qed.
Lemma describes_idle : forall e t r ti tr, describes geom e t -> active e r = false -> row_of r ti tr t = 0.
Proof.
  intros e t r ti tr D A. unfold active in A. destruct D as [K|K|s Sh Se|f fl F K H]; cbn [row_of].
  - rewrite K in A. cbn in A. destruct (r =? 0)%nat; [discriminate|reflexivity].
  - rewrite K in A. cbn in A. destruct (r =? 0)%nat; [discriminate|reflexivity].
  - assert (needs_fourier (kind e) = true) as N by (unfold shape_of in Sh; destruct (kind e); try discriminate; reflexivity). rewrite N in A. destruct (r =? 0)%nat; [reflexivity|discriminate].
  - rewrite K in A. cbn in A. destruct (r =? 0)%nat; [reflexivity|discriminate].
Qed.
Lemma run_values : forall es ts cells c r st, Forall2 (describes geom) es ts -> NoDup (map place cells) -> In c cells -> lit c -> (r <= 2 * nk)%nat ->
  kf (fold_left (fun st e => run cells e st) es st) r (at_row c) (at_col c) = nadd (kf st r (at_row c) (at_col c)) (Some (sum (row_of r (inc c) (ref c)) ts)).
Proof.
  intros es ts cells c r st D Hn Hc L Hr. revert st. induction D as [|e t es ts D Ds IH]; intro st; [cbn; symmetry; apply nadd_0_r|]. cbn [fold_left]. rewrite IH, sum_cons'.
  destruct (active e r) eqn:A.
  - rewrite busy by assumption. rewrite (describes_value e t r c D L Hr A), nadd_assoc. cbn [nadd bind]. reflexivity.
  - destruct (idle qx nk kqx geom n_derivs derivs cells c r e st A) as [-> _]. rewrite (describes_idle e t r _ _ D A). rewrite Rplus_0_l. reflexivity.
Qed.
(** the Fourier sum of a surface *)
Lemma reflect_of : forall m ti tr ts fl f, (fl = false -> m = 0%nat /\ Forall (fun t => match t with Flat _ => True | Turning _ _ => False end) ts) ->
  (forall r, (r <= 2 * nk)%nat -> f r = Some (sum (row_of r ti tr) ts)) ->
  nmul (component nk kqx kqw m fl f) (Some (2 - zeroth m)) = Some (surface nk kqx kqw m ti tr ts).
Proof.
  intros m ti tr ts fl f Hf H. assert (surface nk kqx kqw m ti tr ts = sum (part nk kqx kqw m ti tr) ts) as -> by reflexivity. destruct fl.
  - rewrite (component_sum nk kqx kqw m f (sum (row_of 0 ti tr) ts) (fun k => sum (row_of (k + 1) ti tr) ts)).
    + cbn [nmul bind]. f_equal.
      rewrite (sum_ext _ (fun k => kqw k * cos (INR m * kqx k) * sum (row_of (k + 1) ti tr) ts) (fun k => sum (fun t => kqw k * cos (INR m * kqx k) * row_of (k + 1) ti tr t) ts))
        by (intros; symmetry; apply sum_scale).
      rewrite sum_swap, <- sum_scale, <- sum_plus, Rmult_comm, <- sum_scale. apply sum_ext. intros t _. destruct t as [a|a F]; cbn [row_of part].
      * rewrite sum_zero. 2:{ intros k _. destruct (Nat.eqb_spec (k + 1) 0); [lia|ring]. } unfold zeroth. cbn [Nat.eqb]. destruct (m =? 0)%nat; ring.
      * unfold coefficient. rewrite upto_sum. cbn [Nat.eqb]. rewrite Rmult_0_r, Rplus_0_l.
        rewrite (sum_ext _ _ (fun k => a * (kqw k * cos (INR m * kqx k) * F ti tr (kqx k)))).
        2:{ intros k Hk'. apply in_seq in Hk'. destruct (Nat.eqb_spec (k + 1) 0); [lia|]. rewrite node_plus by lia. ring. }
        rewrite sum_scale. unfold zeroth. destruct (m =? 0)%nat; ring.
    + apply H. lia. + intros k K. apply H. lia.
    + intros k K. rewrite H by lia. f_equal. apply sum_ext. intros [a|a F] _; cbn [row_of]; destruct (Nat.eqb_spec (nk + k + 1) 0), (Nat.eqb_spec (k + 1) 0); try lia; [reflexivity|].
      rewrite node_minus, node_plus by lia. reflexivity.
  - destruct (Hf eq_refl) as [-> Fl]. unfold component. rewrite H by lia. cbn [nmul bind]. f_equal. unfold zeroth. cbn [Nat.eqb]. replace (2 - 1) with 1 by lra. rewrite Rmult_1_r.
    apply sum_ext. intros t I. rewrite Forall_forall in Fl. specialize (Fl t I). destruct t; [reflexivity|destruct Fl].
Qed.
Lemma flat_terms : forall es ts, Forall2 (describes geom) es ts -> flag es = false -> Forall (fun t => match t with Flat _ => True | Turning _ _ => False end) ts.
Proof.
  intros es ts D. induction D as [|e t es ts D Ds IH]; intro H; [constructor|]. cbn in H. apply orb_false_iff in H. destruct H as [H1 H2]. constructor; [|apply IH, H2].
  destruct D as [K|K|s Sh Se|f fl F K X]; try exact I. - unfold shape_of in Sh. destruct (kind e); discriminate. - rewrite K in H1. discriminate.
Qed.
Lemma solar_flat : forall es m, solar_surface es m = true -> flag es = false -> m = 0%nat.
Proof. intros es m H F. unfold solar_surface in H. apply andb_true_iff in H. destruct H as [_ H]. rewrite F, orb_false_r in H. apply Nat.eqb_eq, H. Qed.

Theorem reflects : forall es ts cells c old m, Forall2 (describes geom) es ts -> NoDup (map place cells) -> In c cells -> lit c -> solar_surface es m = true ->
  nmul (component nk kqx kqw m (flag es) (fun r => kf (build qx nk kqx geom n_derivs derivs es cells old) r (at_row c) (at_col c))) (Some (2 - zeroth m)) =
  Some (surface nk kqx kqw m (inc c) (ref c) ts).
Proof.
  intros es ts cells c old m D Hn Hc L S0. apply reflect_of.
  - intro F. split; [apply (solar_flat es m S0 F)|apply (flat_terms es ts D F)].
  - intros r Hr. unfold build. rewrite (run_values es ts cells c r _ D Hn Hc L Hr). cbn [kf nadd bind]. rewrite Rplus_0_l. reflexivity.
Qed.

(** Derivatives: the entries move *)
Record track := { track_kind : kernel; amp : R -> R; amp_l : nat -> R; par : R -> nat -> R; par_l : nat -> nat -> R }.
Definition at_time (x : R) (k : track) : entry := {| kind := track_kind k; ampfac := amp k x; ampfac_l := amp_l k; params := par k x; params_l := par_l k |}.
(** [served l x z ks Ts]: the derivatives l are to be had, the work array holding zeros at first if [z]; [Ts]: the moving terms *)
Inductive served (l : nat) (x : R) : bool -> list track -> list (R -> term) -> Prop :=
| s_nil : forall z, served l x z [] []
| s_lambertian : forall z k ks Ts, track_kind k = Lambertian -> derivable_pt_lim (amp k) x (amp_l k l) ->
    served l x true ks Ts -> served l x z (k :: ks) ((fun y => Flat (amp k y)) :: Ts)
| s_direct : forall z k ks Ts i, track_kind k = Direct_and_diffuse -> derivable_pt_lim (amp k) x (amp_l k l) ->
    i = match geom with U0 => 0 | Q0 => 1 | UQ => 2 | QQ => 3 end%nat -> derivable_pt_lim (fun y => par k y i) x (par_l k l i) ->
    served l x false ks Ts -> served l x z (k :: ks) ((fun y => Flat (amp k y * par k y i)) :: Ts)
| s_user : forall z k ks Ts f f_l F F', track_kind k = User_defined f f_l -> derivable_pt_lim (amp k) x (amp_l k l) ->
    (forall y ti tr phi ph, from_sky ti -> from_sky tr -> 0 <= phi <= PI -> ph = phi \/ ph = - phi -> f geom (ang ti) (ang tr) (azimuth_of phi) ph (par k y) = Some (F y ti tr phi)) ->
    (forall ti tr phi ph, from_sky ti -> from_sky tr -> 0 <= phi <= PI -> ph = phi \/ ph = - phi -> f_l geom (ang ti) (ang tr) (azimuth_of phi) ph (par k x) (par_l k l) = Some (F' ti tr phi)) ->
    (forall ti tr phi, from_sky ti -> from_sky tr -> 0 <= phi <= PI -> derivable_pt_lim (fun y => F y ti tr phi) x (F' ti tr phi)) ->
    served l x false ks Ts -> served l x z (k :: ks) ((fun y => Turning (amp k y) (F y)) :: Ts)
| s_shape : forall k ks Ts s, shape_of (at_time x k) = Some s -> sensible s -> derivable_pt_lim (amp k) x (amp_l k l) -> (forall y, par k y = par k x) ->
    served l x true ks Ts -> served l x true (k :: ks) ((fun y => Turning (amp k y) (brdf s)) :: Ts).
Lemma served_describes : forall l x z ks Ts y, served l x z ks Ts -> Forall2 (describes geom) (map (at_time y) ks) (map (fun T => T y) Ts).
Proof.
  intros l x z ks Ts y H. induction H as [z|z k ks Ts K A H IH|z k ks Ts i K A Hi P H IH|z k ks Ts f f_l F F' K A U U' Ud H IH|k ks Ts s K Se A P H IH]; cbn [map]; constructor; try exact IH.
  - apply d_lambertian. exact K.
  - subst i. assert (par k y match geom with U0 => 0 | Q0 => 1 | UQ => 2 | QQ => 3 end%nat = match geom with U0 => par k y 0%nat | Q0 => par k y 1%nat | UQ => par k y 2%nat | QQ => par k y 3%nat end) as -> by (destruct geom; reflexivity).
    exact (d_direct geom (at_time y k) K).
  - refine (d_user geom (at_time y k) f f_l (F y) K _). intros; apply U; assumption.
  - refine (d_shape geom (at_time y k) s _ Se). unfold shape_of in *. cbn [at_time kind params] in *. rewrite (P y). exact K.
Qed.
Lemma report_silent : forall e v l s, shape_of e = Some s -> report qx kqx geom n_derivs derivs e v l = None.
Proof using. intros e v l s H. unfold report. unfold shape_of in H. destruct (_ && _)%bool; [|reflexivity]. destruct (kind e); try discriminate; reflexivity. Qed.
Lemma served_runs : forall l x cells c, (l < n_derivs)%nat -> derivs l = true -> NoDup (map place cells) -> In c cells -> lit c ->
  forall z ks Ts, served l x z ks Ts -> exists Ds,
    Forall2 (fun T D => forall r, (r <= 2 * nk)%nat -> derivable_pt_lim (fun y => row_of r (inc c) (ref c) (T y)) x (row_of r (inc c) (ref c) D)) Ts Ds /\
    Forall2 (fun T D => match T x with Flat _ => exists d, D = Flat d | Turning _ _ => exists d F, D = Turning d F end) Ts Ds /\
    forall st, (z = true -> f_l st l = Some 0) -> forall r, (r <= 2 * nk)%nat ->
      kf_l (fold_left (fun st e => run cells e st) (map (at_time x) ks) st) l r (at_row c) (at_col c) =
      nadd (kf_l st l r (at_row c) (at_col c)) (Some (sum (row_of r (inc c) (ref c)) Ds)).
Proof.
  intros l x cells c Hl Hd Hn Hc L z ks Ts H.
  assert ((l <? n_derivs)%nat = true) as Hl' by (apply Nat.ltb_lt; exact Hl).
  assert (forall e r, active e r = true -> (r <= 2 * nk)%nat -> In (visit_at nk kqx r c) (visits nk kqx e cells)) as Vis by (intros e r A Hr; apply in_visits; exists r, c; auto).
  assert (forall r, key (visit_at nk kqx r c) = (r, (at_row c, at_col c))) as Key by (intro r; apply visit_at_key).
  pose proof (sky_acos _ (proj1 L)) as Si. pose proof (sky_acos _ (proj2 L)) as Sr.
  induction H as [z|z k ks Ts K A H IH|z k ks Ts i K A Hi P H IH|z k ks Ts f f_l F F' K A U U' Ud H IH|k ks Ts s K Se A P H IH].
  - exists []. refine (conj (Forall2_nil _) (conj (Forall2_nil _) _)). intros st _ r _. cbn. symmetry. apply nadd_0_r.
  - destruct IH as (Ds & D1 & D2 & D3). exists (Flat (amp_l k l) :: Ds). refine (conj _ (conj _ _)).
    + constructor; [|exact D1]. intros r _. cbn [row_of]. destruct (r =? 0)%nat; [exact A|apply derivable_pt_lim_const].
    + constructor; [|exact D2]. exists (amp_l k l). reflexivity.
    + intros st _ r Hr. cbn [map fold_left]. rewrite D3; [|intros _|exact Hr].
      * rewrite sum_cons'. destruct (active (at_time x k) r) eqn:Ac.
        -- rewrite (touched_l qx kqx geom n_derivs derivs (at_time x k) l _ st (visit_at nk kqx r c) r _ _ (fun _ => True) (Some 0)); auto using visits_nodup.
           ++ unfold active in Ac. cbn [at_time kind] in Ac. rewrite K in Ac. cbn in Ac. destruct (r =? 0)%nat eqn:Z; [|discriminate].
              rewrite nadd_assoc. f_equal. unfold value. cbn [at_time kind]. rewrite K. cbn. rewrite Z. f_equal. ring.
           ++ intros b _. unfold report. rewrite Hl', Hd. cbn [at_time kind andb]. rewrite K. reflexivity.
        -- destruct (idle qx nk kqx geom n_derivs derivs cells c r (at_time x k) st Ac) as [_ ->]. unfold active in Ac. cbn [at_time kind] in Ac. rewrite K in Ac. cbn in Ac.
           cbn [row_of]. destruct (r =? 0)%nat; [discriminate|]. rewrite Rplus_0_l. reflexivity.
      * apply written.
        -- unfold visits. cbn [at_time kind]. rewrite K. cbn [needs_fourier]. destruct cells; [destruct Hc|discriminate].
        -- intros w b. unfold report. rewrite Hl', Hd. cbn [at_time kind andb]. rewrite K. reflexivity.
  - destruct IH as (Ds & D1 & D2 & D3). exists (Flat (amp_l k l * par k x i + amp k x * par_l k l i) :: Ds). refine (conj _ (conj _ _)).
    + constructor; [|exact D1]. intros r _. cbn [row_of]. destruct (r =? 0)%nat; [exact (derivable_pt_lim_mult _ _ _ _ _ A P)|apply derivable_pt_lim_const].
    + constructor; [|exact D2]. eexists. reflexivity.
    + intros st _ r Hr. cbn [map fold_left]. rewrite D3; [|discriminate|exact Hr].
      rewrite sum_cons'. destruct (active (at_time x k) r) eqn:Ac.
      * rewrite (touched_l qx kqx geom n_derivs derivs (at_time x k) l _ st (visit_at nk kqx r c) r _ _ (fun _ => True) (Some (par_l k l i))); auto using visits_nodup.
        -- unfold active in Ac. cbn [at_time kind] in Ac. rewrite K in Ac. cbn in Ac. destruct (r =? 0)%nat eqn:Z; [|discriminate].
           rewrite nadd_assoc. f_equal. unfold value. cbn [at_time kind]. rewrite K. cbn. rewrite Z. f_equal. subst i. unfold direct_diffuse_param. destruct geom; ring.
        -- intros b _. unfold report. rewrite Hl', Hd. cbn [at_time kind andb]. rewrite K. subst i. unfold direct_diffuse_param. destruct geom; reflexivity.
      * destruct (idle qx nk kqx geom n_derivs derivs cells c r (at_time x k) st Ac) as [_ ->]. unfold active in Ac. cbn [at_time kind] in Ac. rewrite K in Ac. cbn in Ac.
        cbn [row_of]. destruct (r =? 0)%nat; [discriminate|]. rewrite Rplus_0_l. reflexivity.
  - destruct IH as (Ds & D1 & D2 & D3). exists (Turning 1 (fun ti tr p => amp_l k l * F x ti tr p + amp k x * F' ti tr p) :: Ds). refine (conj _ (conj _ _)).
    + constructor; [|exact D1]. intros r Hr. cbn [row_of]. destruct (Nat.eqb_spec r 0); [apply derivable_pt_lim_const|]. rewrite Rmult_1_l.
      exact (derivable_pt_lim_mult _ _ _ _ _ A (Ud _ _ _ Si Sr (node_range r ltac:(lia)))).
    + constructor; [|exact D2]. eexists. eexists. reflexivity.
    + intros st _ r Hr. cbn [map fold_left]. rewrite D3; [|discriminate|exact Hr].
      rewrite sum_cons'. destruct (active (at_time x k) r) eqn:Ac.
      * unfold active in Ac. cbn [at_time kind] in Ac. rewrite K in Ac. cbn in Ac. destruct (r =? 0)%nat eqn:Z; [discriminate|].
        destruct (node_visit r c Z) as [Pn Qn]. pose proof Z as Z'. apply Nat.eqb_neq in Z'. pose proof (node_range r ltac:(lia)) as B.
        rewrite (touched_l qx kqx geom n_derivs derivs (at_time x k) l _ st (visit_at nk kqx r c) r _ _ (fun _ => True) (Some (F' (inc c) (ref c) (node_of r)))); auto using visits_nodup.
        -- rewrite (value_user (at_time x k) f f_l (F x) r c K (U x) L Hr Z), nadd_assoc. f_equal. cbn [row_of at_time ampfac ampfac_l nmul nadd bind]. rewrite Z. f_equal. ring.
        -- apply Vis; [|exact Hr]. unfold active. cbn [at_time kind]. rewrite K, Z. reflexivity.
        -- intros b _. unfold report. rewrite Hl', Hd. cbn [at_time kind andb params params_l]. rewrite K, visit_at_spot.
           rewrite (user_call (fun i j => f_l geom i j _ _ _ _) c L), Pn. apply U'; assumption.
      * destruct (idle qx nk kqx geom n_derivs derivs cells c r (at_time x k) st Ac) as [_ ->]. unfold active in Ac. cbn [at_time kind] in Ac. rewrite K in Ac. cbn in Ac.
        cbn [row_of]. destruct (r =? 0)%nat; [|discriminate]. rewrite Rplus_0_l. reflexivity.
  - destruct IH as (Ds & D1 & D2 & D3). exists (Turning (amp_l k l) (brdf s) :: Ds). refine (conj _ (conj _ _)).
    + constructor; [|exact D1]. intros r Hr. cbn [row_of]. destruct (Nat.eqb_spec r 0); [apply derivable_pt_lim_const|]. apply dl_mult_const, A.
    + constructor; [|exact D2]. eexists. eexists. reflexivity.
    + intros st Zr r Hr. cbn [map fold_left]. specialize (Zr eq_refl).
      assert (needs_fourier (kind (at_time x k)) = true) as N by (unfold shape_of in K; destruct (kind (at_time x k)); try discriminate; reflexivity).
      assert (forall w b, b = Some 0 -> match report qx kqx geom n_derivs derivs (at_time x k) w l with Some z => z | None => b end = Some 0) as Keep.
      { intros w b E. rewrite (report_silent _ w l s K). exact E. }
      rewrite D3; [|intros _; apply (kept qx kqx geom n_derivs derivs (at_time x k) l _ st (fun b => b = Some 0) Zr Keep)|exact Hr].
      rewrite sum_cons'. destruct (active (at_time x k) r) eqn:Ac.
      * rewrite (touched_l qx kqx geom n_derivs derivs (at_time x k) l _ st (visit_at nk kqx r c) r _ _ (fun b => b = Some 0) (Some 0)); auto using visits_nodup.
        unfold active in Ac. rewrite N in Ac. destruct (r =? 0)%nat eqn:Z; [discriminate|].
        rewrite (value_shape (at_time x k) s r c K Se L Hr Z), nadd_assoc. f_equal. cbn [row_of at_time ampfac ampfac_l nmul nadd bind]. rewrite Z. f_equal. ring.
      * destruct (idle qx nk kqx geom n_derivs derivs cells c r (at_time x k) st Ac) as [_ ->]. unfold active in Ac. rewrite N in Ac.
        cbn [row_of]. destruct (r =? 0)%nat; [|discriminate]. rewrite Rplus_0_l. reflexivity.
Qed.
(** the derivative of a coefficient *)
Lemma dl_sum : forall A (f : A -> R -> R) (f' : A -> R) x l, (forall a, In a l -> derivable_pt_lim (f a) x (f' a)) -> derivable_pt_lim (fun y => sum (fun a => f a y) l) x (sum f' l).
Proof.
  intros A f f' x l. induction l as [|a l IH]; intro H; [apply derivable_pt_lim_const|].
  apply (derivable_pt_lim_plus (f a) (fun y => sum (fun a => f a y) l)); [apply H; left; reflexivity|]. apply IH. intros b Hb. apply H. right. exact Hb.
Qed.
Lemma surface_rows : forall m ti tr ts, surface nk kqx kqw m ti tr ts =
  (2 - zeroth m) * (zeroth m * sum (row_of 0 ti tr) ts + sum (fun k => kqw k * cos (INR m * kqx k) * sum (row_of (k + 1) ti tr) ts) (seq 0 nk)).
Proof.
  intros m ti tr ts. assert (forall r, (r <= 2 * nk)%nat -> (fun r => Some (sum (row_of r ti tr) ts)) r = Some (sum (row_of r ti tr) ts)) as H by reflexivity.
  pose proof (reflect_of m ti tr ts true _ ltac:(discriminate) H) as E.
  rewrite (component_sum nk kqx kqw m _ (sum (row_of 0 ti tr) ts) (fun k => sum (row_of (k + 1) ti tr) ts)) in E.
  - cbn [nmul bind] in E. injection E as E. rewrite <- E. ring.
  - reflexivity.
  - reflexivity.
  - intros k K. cbv beta. f_equal. apply sum_ext. intros [a|a F] _; cbn [row_of]; destruct (Nat.eqb_spec (nk + k + 1) 0), (Nat.eqb_spec (k + 1) 0); try lia; [reflexivity|].
    rewrite node_minus, node_plus by lia. reflexivity.
Qed.
Lemma rows_move : forall x ti tr Ts Ds r, (r <= 2 * nk)%nat ->
  Forall2 (fun T D => forall r, (r <= 2 * nk)%nat -> derivable_pt_lim (fun y => row_of r ti tr (T y)) x (row_of r ti tr D)) Ts Ds ->
  derivable_pt_lim (fun y => sum (row_of r ti tr) (map (fun T => T y) Ts)) x (sum (row_of r ti tr) Ds).
Proof.
  intros x ti tr Ts Ds r Hr H. induction H as [|T D Ts Ds H Hs IH]; [apply derivable_pt_lim_const|].
  exact (derivable_pt_lim_plus _ _ _ _ _ (H r Hr) IH).
Qed.
Lemma surface_moves : forall m x ti tr Ts Ds,
  Forall2 (fun T D => forall r, (r <= 2 * nk)%nat -> derivable_pt_lim (fun y => row_of r ti tr (T y)) x (row_of r ti tr D)) Ts Ds ->
  derivable_pt_lim (fun y => surface nk kqx kqw m ti tr (map (fun T => T y) Ts)) x (surface nk kqx kqw m ti tr Ds).
Proof.
  intros m x ti tr Ts Ds H. rewrite surface_rows. eapply dl_same; [intro y; symmetry; apply surface_rows|]. apply dl_scal. apply dl_plus.
  - apply dl_scal. apply rows_move; [lia|exact H].
  - apply (dl_sum nat (fun k y => kqw k * cos (INR m * kqx k) * sum (row_of (k + 1) ti tr) (map (fun T => T y) Ts))). intros k K. apply in_seq in K. apply dl_scal. apply rows_move; [lia|exact H].
Qed.
Theorem reflects_l : forall l x ks Ts cells c old m, served l x false ks Ts -> (l < n_derivs)%nat -> derivs l = true ->
  NoDup (map place cells) -> In c cells -> lit c -> solar_surface (map (at_time x) ks) m = true ->
  exists d, derivable_pt_lim (fun y => surface nk kqx kqw m (inc c) (ref c) (map (fun T => T y) Ts)) x d /\
  nmul (component nk kqx kqw m (flag (map (at_time x) ks))
    (fun r => kf_l (build qx nk kqx geom n_derivs derivs (map (at_time x) ks) cells old) l r (at_row c) (at_col c))) (Some (2 - zeroth m)) = Some d.
Proof.
  intros l x ks Ts cells c old m Sv Hl Hd Hn Hc L S0. destruct (served_runs l x cells c Hl Hd Hn Hc L false ks Ts Sv) as (Ds & D1 & D2 & D3).
  exists (surface nk kqx kqw m (inc c) (ref c) Ds). split; [apply surface_moves, D1|]. apply reflect_of.
  - intro F. split; [apply (solar_flat _ m S0 F)|]. pose proof (flat_terms _ _ (served_describes l x false ks Ts x Sv) F) as Fl. clear -D2 Fl.
    induction D2 as [|T D Ts Ds H Hs IH]; [constructor|]. cbn [map] in Fl. inversion Fl; subst. constructor; [|apply IH; assumption]. destruct (T x); [|contradiction]. destruct H as [d ->]. exact I.
  - intros r Hr. unfold build. rewrite D3; [|discriminate|exact Hr]. cbn [kf_l]. rewrite Hd. replace (l <? n_derivs)%nat with true by (symmetry; apply Nat.ltb_lt; exact Hl).
    cbn [andb nadd bind]. rewrite Rplus_0_l. reflexivity.
Qed.
(** a kernel that writes no derivatives in front *)
Lemma nadd_none : forall a, nadd a None = None. Proof. intros [a|]; reflexivity. Qed.
Lemma stays_none : forall es cells st l r x y, kf_l st l r x y = None -> kf_l (fold_left (fun st e => run cells e st) es st) l r x y = None.
Proof using.
  intros es cells. induction es as [|e es IH]; intros st l r x y H; [exact H|]. cbn [fold_left]. apply IH. clear IH. revert st H. induction (visits nk kqx e cells) as [|v vs IHv]; intros st H; [exact H|].
  cbn [fold_left]. apply IHv. cbn [evaluate kf_l]. destruct (_ && _)%bool; [rewrite H; reflexivity|exact H].
Qed.
Lemma component_none : forall m f, (0 < nk)%nat -> f 1%nat = None -> component nk kqx kqw m true f = None.
Proof using.
  clear Hk. intros m f H F. unfold component. destruct nk as [|n]; [lia|]. cbn [seq fold_left]. cbn [Nat.add]. rewrite F. cbn [nmul bind]. rewrite nadd_none. cbn [nadd bind].
  generalize (seq 1 n). intro k. induction k as [|a k IH]; [reflexivity|]. cbn [fold_left nadd bind]. exact IH.
Qed.
Theorem silent_l : forall l e es s cells c old m, shape_of e = Some s -> (0 < nk)%nat -> (l < n_derivs)%nat -> derivs l = true -> NoDup (map place cells) -> In c cells ->
  component nk kqx kqw m (flag (e :: es)) (fun r => kf_l (build qx nk kqx geom n_derivs derivs (e :: es) cells old) l r (at_row c) (at_col c)) = None.
Proof using.
  intros l e es s cells c old m Sh Hn0 Hl Hd Hn Hc.
  assert (needs_fourier (kind e) = true) as N by (unfold shape_of in Sh; destruct (kind e); try discriminate; reflexivity).
  assert (flag (e :: es) = true) as -> by (cbn; rewrite N; reflexivity). apply component_none; [exact Hn0|]. unfold build. cbn [fold_left]. apply stays_none.
  rewrite (touched_l qx kqx geom n_derivs derivs e l _ _ (visit_at nk kqx 1 c) 1 _ _ (fun b => b = None) None); auto.
  - cbn [nmul nadd bind]. apply nadd_none.
  - apply visits_nodup, Hn.
  - apply in_visits. exists 1%nat, c. refine (conj Hc (conj _ (conj _ eq_refl))); [lia|]. unfold active. rewrite N. reflexivity.
  - apply visit_at_key.
  - intros w b ->. rewrite (report_silent e w l s Sh). reflexivity.
  - intros b ->. rewrite (report_silent e _ l s Sh). reflexivity.
Qed.
End Reflects.

(** Reciprocity *)
Lemma phase_swap : forall ti tr phi, cos_phase phi ti tr = cos_phase phi tr ti. Proof. intros. unfold cos_phase. ring. Qed.
Lemma gap_swap : forall ti tr phi, gap phi ti tr = gap phi tr ti. Proof. intros. unfold gap. f_equal. ring. Qed.
Lemma secs_swap : forall ti tr b, secs ti tr b = secs tr ti b. Proof. intros. unfold secs. ring. Qed.
Lemma overlap_swap : forall ti tr phi b h, overlap ti tr phi b h = overlap tr ti phi b h.
Proof.
  intros. unfold overlap. rewrite (secs_swap ti tr). assert (cos_overlap ti tr phi b h = cos_overlap tr ti phi b h) as ->; [|reflexivity].
  unfold cos_overlap. rewrite (secs_swap ti tr), (gap_swap (crown b ti)). rewrite (Rmult_comm (tan (crown b ti)) (tan (crown b tr))). reflexivity.
Qed.
Definition not_li (s : shape) : Prop := match s with S_li_sparse _ _ | S_li_dense _ _ => False | _ => True end.
Lemma brdf_swap : forall s ti tr phi, not_li s -> brdf s ti tr phi = brdf s tr ti phi.
Proof.
  intros s ti tr phi N. assert (phase ti tr phi = phase tr ti phi) as P by (unfold phase; rewrite phase_swap; reflexivity).
  destruct s; cbn [brdf not_li] in *; try contradiction; unfold roujean_brdf, ross_thin_brdf, ross_thick_brdf, hapke_brdf, rahman_brdf, cox_munk_brdf, tilt; cbv zeta;
    rewrite ?P, ?(gap_swap ti tr), ?(Rmult_comm (cos ti) (cos tr)), ?(Rplus_comm (cos ti) (cos tr)); try reflexivity.
  - ring.
  - rewrite (Rmult_comm ((1 + 2 * cos ti) / (1 + 2 * cos ti * sqrt (1 - albedo)))). reflexivity.
  - f_equal. f_equal. rewrite (Rmult_assoc _ (cos ti) (cos tr)), (Rmult_assoc _ (cos tr) (cos ti)), (Rmult_comm (cos ti) (cos tr)). reflexivity.
Qed.
Lemma surface_swap : forall n node w m ti tr ts, Forall (fun t => match t with Flat _ => True | Turning _ f => forall a b p, f a b p = f b a p end) ts ->
  surface n node w m ti tr ts = surface n node w m tr ti ts.
Proof.
  intros n node w m ti tr ts H. induction H as [|t ts H Hs IH]; [reflexivity|]. cbn [surface List.fold_right]. unfold surface in IH. rewrite IH. f_equal.
  destruct t as [a|a f]; [reflexivity|]. cbn [part]. f_equal. unfold coefficient. f_equal. rewrite !upto_sum. apply sum_ext. intros k _. rewrite H. reflexivity.
Qed.
