(** rtm_doub_rts as a whole. *)
From Coq Require Import Reals Bool Arith Lia Lra List ZArith.
From Verif Require Import Base DerivsModel DeltaMSpec DeltaMProofs BeamProofs AddingModel AddingSpec AddingMat AddingJoin AddingDeriv AddingLin AddingCalls
  DoublingModel DoublingSpec DoublingProofs DoublingLoop.
Open Scope R_scope.

Lemma sg_sign : forall ns k, sg ns k = sign ns k.
Proof. intros ns k. unfold sg, sign. destruct (Nat.leb_spec 2 (k mod ns)), (Nat.ltb_spec (k mod ns) 2); try lia; reflexivity. Qed.
Lemma sign_square : forall ns k, sign ns k * sign ns k = 1.
Proof. intros ns k. unfold sign. destruct (_ <? 2)%nat; ring. Qed.
Lemma sign_one : forall ns k, (1 <= ns <= 2)%nat -> sign ns k = 1.
Proof.
  intros ns k H. unfold sign. destruct (Nat.ltb_spec (k mod ns) 2) as [_|K]; [reflexivity|].
  pose proof (Nat.mod_upper_bound k ns ltac:(lia)). lia.
Qed.
Lemma exp_pow : forall x k, exp x ^ k = exp (INR k * x).
Proof.
  intros x k. induction k as [|k IH]; [cbn [pow INR]; rewrite Rmult_0_l, exp_0; reflexivity|].
  cbn [pow]. rewrite IH, <- exp_plus, S_INR. f_equal. ring.
Qed.

Section Rtm.
Variable n : nat.
Variable solve : mat -> mat -> mat.
Hypothesis Solve : solver n solve.
Variable ns : nat.
Variables (F_0 : R) (qx : vec) (N : nat) (solar thermal vector : bool) (nd : nat) (dl db dt : nat -> bool).
Hypothesis Stokes : vector = true \/ (1 <= ns <= 2)%nat.
Notation thin := (thin ns F_0 qx N solar thermal vector).
Notation passes := (passes n solve solar thermal nd dl db dt).
Notation pass := (pass n solve solar thermal nd dl db dt).
Notation linearized := (linearized solar thermal nd dl db dt).
Notation steps := (steps n solve solar thermal).

(** The variables of the loop *)
Definition tr (t0 : R) (k : nat) : R := if solar then t0 ^ (2 ^ k) else t0.
Definition ln_ (l0 : R) (k : nat) : R := if thermal then l0 * 2 ^ k else l0.
Lemma passes_S : forall path k s, passes path (S k) s = pass path k (passes path k s).
Proof. reflexivity. Qed.
Lemma passes_facs : forall path k s, d_tran (passes path k s) = tr (d_tran s) k /\ fac (passes path k s) = ln_ (fac s) k.
Proof.
  intros path k s. unfold tr, ln_. induction k as [|k [IH1 IH2]]; [cbn; destruct solar, thermal; split; ring|].
  rewrite passes_S. cbn [DoublingModel.pass d_tran fac]. rewrite IH1, IH2. split.
  - destruct solar; [|reflexivity]. cbn [Nat.pow]. rewrite <- pow_add. f_equal. lia.
  - destruct thermal; [|reflexivity]. cbn [pow]. ring.
Qed.
Lemma passes_values : forall path k s, values (passes path k s) = steps linearized (tr (d_tran s)) (ln_ (fac s)) k (values s).
Proof.
  intros path k s. induction k as [|k IH]; [reflexivity|].
  rewrite passes_S. cbn [DoublingModel.pass values DoublingLoop.steps]. destruct (passes_facs path k s) as [-> ->]. rewrite IH. reflexivity.
Qed.
Lemma or_some : forall f j, (j < nd)%nat -> f j = true -> flags_or nd f = true.
Proof. intros f j H K. apply existsb_exists. exists j. split; [apply in_seq; lia|exact K]. Qed.
Lemma passes_c : forall path k s, c_ (passes path k s) = if solar && flags_or nd db then c_ s * 2 ^ k else c_ s.
Proof.
  intros path k s. induction k as [|k IH]; [cbn [DoublingModel.passes pow]; destruct (_ && _); ring|].
  rewrite passes_S. cbn [DoublingModel.pass c_]. rewrite IH. destruct solar; [|reflexivity]. cbn [andb]. destruct (flags_or nd db); [cbn [pow]; ring|reflexivity].
Qed.
Lemma passes_tran_l : forall path k s j, solar = true -> (j < nd)%nat -> db j = true -> c_ s = 1 -> d_tran_l s j = path j * d_tran s ->
  d_tran_l (passes path k s) j = path j * tr (d_tran s) k * 2 ^ k.
Proof.
  intros path k s j E Hj B C I.
  assert (solar && flags_or nd db = true) as F by (rewrite E; exact (or_some db j Hj B)).
  assert (forall i, tr (d_tran s) i = d_tran s ^ (2 ^ i)) as Ft by (intros i; unfold tr; rewrite E; reflexivity).
  destruct k as [|k].
  - cbn [DoublingModel.passes pow]. rewrite I, Ft. cbn. ring.
  - rewrite passes_S. cbn [DoublingModel.pass d_tran_l]. rewrite F.
    apply Nat.ltb_lt in Hj as Hj'. rewrite Hj', B. cbn [andb]. rewrite passes_c, F, (or_some db j Hj B), C.
    destruct (passes_facs path k s) as [-> _]. rewrite !Ft. replace (2 ^ S k)%nat with (2 ^ k + 2 ^ k)%nat by (cbn [Nat.pow]; lia). rewrite pow_add. cbn [pow]. ring.
Qed.
Lemma passes_lin_l : forall path k s j, thermal = true -> (j < nd)%nat -> dt j = true -> fac_l (passes path k s) j = fac_l s j * 2 ^ k.
Proof.
  intros path k s j E Hj B. assert (thermal && flags_or nd dt = true) as F by (rewrite E; exact (or_some dt j Hj B)).
  induction k as [|k IH]; [cbn; ring|].
  rewrite passes_S. cbn [DoublingModel.pass fac_l]. rewrite F.
  apply Nat.ltb_lt in Hj as Hj'. rewrite Hj', B. cbn [andb]. rewrite IH. cbn [pow]. ring.
Qed.

(** The thin layer *)
Definition face_of (x : sheet) : layer := turn (sign ns) (sun x).
Lemma stokes_R : forall a i j, (if vector then mul_D ns a else a) i j = sign ns i * a i j.
Proof.
  intros a i j. destruct Stokes as [->|H]; [unfold mul_D; rewrite sg_sign; reflexivity|].
  destruct vector; [unfold mul_D; rewrite sg_sign; reflexivity|]. rewrite (sign_one ns i H). ring.
Qed.
Lemma stokes_v : forall a i, (if vector then mul_Dv ns a else a) i = sign ns i * a i.
Proof.
  intros a i. destruct Stokes as [->|H]; [unfold mul_Dv; rewrite sg_sign; reflexivity|].
  destruct vector; [unfold mul_Dv; rewrite sg_sign; reflexivity|]. rewrite (sign_one ns i H). ring.
Qed.
Lemma cancel_sign : forall i x, sign ns i * (sign ns i * x) = x.
Proof. intros. rewrite <- Rmult_assoc, sign_square. ring. Qed.
Lemma i_sub_neg : forall d a i j, i_sub (mscale (- d) a) i j = ident i j + d * a i j.
Proof. intros. unfold i_sub, mscale, ident. destruct (Nat.eqb i j); ring. Qed.
Lemma thin_sun : forall g old k, solar = true -> leq n (turn (sign ns) (scaled (tran N g ^ k) (sun (thin g old)))) (sunlit ns F_0 qx N g k).
Proof.
  intros g old k E. refine (conj _ (conj _ (conj _ (conj _ (conj _ _))))); cbn [turn scaled sun sym sunlit slice DoublingModel.thin Rm Tm Sm Rp Tp Sp hR hT Se_m Se_p].
  - intros i j _ _. rewrite stokes_R. unfold mscale, thickness. ring.
  - intros i j _ _. rewrite i_sub_neg. unfold thickness. ring.
  - intros i _. rewrite E. unfold tv, vscale at 1. rewrite stokes_v. unfold vscale, dinv, tran, thickness.
    rewrite S_INR. replace (- ((INR k + 1) * (ltau g / 2 ^ N) * as_0 g)) with (INR k * (- (ltau g / 2 ^ N) * as_0 g) + - (ltau g / 2 ^ N) * as_0 g) by ring.
    rewrite exp_plus, <- exp_pow. unfold Rdiv.
    transitivity (sign ns i * sign ns i * (exp (- (ltau g * / 2 ^ N) * as_0 g) ^ k * (F_0 * / (4 * PI) * omega g * exp (- (ltau g * / 2 ^ N) * as_0 g) * (ltau g * / 2 ^ N) * (P_mm g i * / qx i)))); [ring|].
    rewrite sign_square. ring.
  - intros i j _ _. rewrite stokes_R, cancel_sign. reflexivity.
  - intros i j _ _. rewrite i_sub_neg. unfold thickness. ring.
  - intros i _. rewrite E. unfold vscale, dinv, tran, thickness.
    rewrite S_INR. replace (- ((INR k + 1) * (ltau g / 2 ^ N) * as_0 g)) with (INR k * (- (ltau g / 2 ^ N) * as_0 g) + - (ltau g / 2 ^ N) * as_0 g) by ring.
    rewrite exp_plus, <- exp_pow. unfold Rdiv. ring.
Qed.
Lemma thin_warm : forall g old k, thermal = true -> (1 <= ns <= 2)%nat -> (planck0 g <> 0 \/ planck1 g = 0) ->
  leq n (turn (sign ns) (comb (INR k * lin_fac N g) (warm_ (thin g old)) (warm_ (thin g old)))) (emitting ns qx N g k).
Proof.
  intros g old k E H P.
  assert (forall i, (1 - omega g) * planck0 g * (ltau g / 2 ^ N) / qx i + INR k * lin_fac N g * ((1 - omega g) * planck0 g * (ltau g / 2 ^ N) / qx i) =
    (1 - omega g) * (ltau g / 2 ^ N) * (planck0 g + INR k * (planck1 g - planck0 g) / 2 ^ N) / qx i) as K.
  { intros i. unfold lin_fac. destruct (Req_EM_T (planck0 g) 0) as [Z|Z].
    - destruct P as [P|P]; [contradiction|]. rewrite Z, P. unfold Rdiv. ring.
    - assert (forall b, b * (planck0 g + INR k * (planck1 g - planck0 g) / 2 ^ N) = b * planck0 g * (1 + INR k * ((planck1 g / planck0 g - 1) / 2 ^ N))) as K.
      { intros b. field. split; first [exact Z|apply pow_nonzero; lra]. }
      rewrite K. unfold Rdiv. ring. }
  refine (conj _ (conj _ (conj _ (conj _ (conj _ _))))); cbn [turn comb warm_ sym emitting slice DoublingModel.thin Rm Tm Sm Rp Tp Sp hR hT Sl_m Sl_p].
  - intros i j _ _. rewrite stokes_R. unfold mscale, thickness. ring.
  - intros i j _ _. rewrite i_sub_neg. unfold thickness. ring.
  - intros i _. rewrite E. unfold tv. rewrite (sign_one ns i H). unfold vadd, vscale, dinv, thickness. rewrite <- K. ring.
  - intros i j _ _. rewrite stokes_R, cancel_sign. reflexivity.
  - intros i j _ _. rewrite i_sub_neg. unfold thickness. ring.
  - intros i _. rewrite E. unfold vadd, vscale, dinv, thickness. rewrite <- K. ring.
Qed.
Lemma solar_out : forall x, leq n (turn (sign ns) (sun x)) (solar_layer ns x).
Proof.
  intros x. refine (conj _ (conj _ (conj _ (conj _ (conj _ _))))); cbn [turn solar_layer sun sym Rm Tm Sm Rp Tp Sp]; unfold symmetry, mul_D, mul_Dv, tv.
  - intros i j _ _. rewrite !sg_sign. transitivity (sign ns i * (sign ns i * (hR x i j * sign ns j))); [rewrite cancel_sign|]; ring.
  - intros i j _ _. rewrite !sg_sign. ring.
  - intros i _. rewrite sg_sign. reflexivity.
  - intros i j _ _. rewrite sg_sign. reflexivity.
  - intros i j _ _. reflexivity.
  - intros i _. reflexivity.
Qed.
Lemma thermal_out : forall x, (1 <= ns <= 2)%nat -> leq n (turn (sign ns) (warm_ x)) (thermal_layer ns x).
Proof.
  intros x H. destruct (solar_out {| hR := hR x; hT := hT x; Se_m := Sl_m x; Se_p := Sl_p x; Sl_m := zvec; Sl_p := zvec; L_m := zvec; L_p := zvec |}) as (A1 & A2 & A3 & A4 & A5 & A6).
  refine (conj A1 (conj A2 (conj _ (conj A4 (conj A5 A6))))). intros i _. cbn. unfold tv. rewrite (sign_one ns i H). ring.
Qed.
Lemma flagged_out : forall l s x, leq n (turn (sign ns) (flagged l s (sun x))) (flagged l s (solar_layer ns x)).
Proof.
  intros l s x. destruct (solar_out x) as (A1 & A2 & A3 & A4 & A5 & A6). cbn [turn sun sym Rm Tm Sm Rp Tp Sp] in *.
  refine (conj _ (conj _ (conj _ (conj _ (conj _ _))))); cbn [flagged turn sun sym Rm Tm Sm Rp Tp Sp];
    first [destruct l; [assumption|intros i j _ _; unfold zmat; ring]|destruct s; [assumption|intros i _; unfold tv, zvec; ring]].
Qed.
Lemma flagged_thermal_out : forall l s x, (1 <= ns <= 2)%nat -> leq n (turn (sign ns) (flagged l s (warm_ x))) (flagged l s (thermal_layer ns x)).
Proof.
  intros l s x H. destruct (thermal_out x H) as (A1 & A2 & A3 & A4 & A5 & A6). cbn [turn warm_ sym Rm Tm Sm Rp Tp Sp] in *.
  refine (conj _ (conj _ (conj _ (conj _ (conj _ _))))); cbn [flagged turn warm_ sym Rm Tm Sm Rp Tp Sp];
    first [destruct l; [assumption|intros i j _ _; unfold zmat; ring]|destruct s; [assumption|intros i _; unfold tv, zvec; ring]].
Qed.

(** Regularity *)
Lemma bare_thin : forall g old k, leq n (turn (sign ns) (sym (hR (thin g old)) (hT (thin g old)) zvec zvec)) ((fun _ : nat => slice ns N g zvec zvec) k).
Proof.
  intros g old k. refine (conj _ (conj _ (conj _ (conj _ (conj _ _))))); cbn [turn sym slice DoublingModel.thin Rm Tm Sm Rp Tp Sp hR hT].
  - intros i j _ _. rewrite stokes_R. unfold mscale, thickness. ring.
  - intros i j _ _. rewrite i_sub_neg. unfold thickness. ring.
  - intros i _. unfold tv, zvec. ring.
  - intros i j _ _. rewrite stokes_R, cancel_sign. reflexivity.
  - intros i j _ _. rewrite i_sub_neg. unfold thickness. ring.
  - intros i _. reflexivity.
Qed.
Lemma turned_regular : forall x, regular n (Rm (turn (sign ns) x)) (Rp (turn (sign ns) x)) -> regular n (Rm x) (Rp x).
Proof.
  intros x H. unfold regular in *. cbn [turn Rm Rp] in H. refine (proj1 (nonsingular_proper n _ _ _) H).
  intros i j _ _. cbv beta. f_equal. apply total_ext. intros k _. transitivity (sign ns k * sign ns k * (Rm x i k * Rp x k j)); [ring|]. rewrite sign_square. ring.
Qed.
Lemma regular_of : forall g old i m ls c, slices_regular n ns N g -> (i < N)%nat -> m = (2 ^ i - 1)%nat ->
  (forall k, bare (ls k) = sym (hR (thin g old)) (hT (thin g old)) zvec zvec) -> stands_for n m ls c -> regular n (Rm c) (Rp c).
Proof.
  intros g old i m ls c G Hi -> E St. apply (turned_regular (bare c)). apply (G i _ Hi).
  apply stands_bare in St. apply (stands_turn n (sign ns) (sign_square ns)) in St.
  eapply stands_leq; [|apply leq_refl|exact St]. intros k _. cbv beta. rewrite E. apply (bare_thin g old k).
Qed.
Lemma solar_regular : forall lin g old l k, slices_regular n ns N g -> solar = true -> (k <= N)%nat ->
  forall i, (i < k)%nat -> regular n (hR (steps lin (tr (tran N g)) l i (thin g old))) (hR (steps lin (tr (tran N g)) l i (thin g old))).
Proof.
  intros lin g old l k G E Hk. induction k as [|k IH]; intros i Hi; [lia|].
  specialize (IH ltac:(lia)).
  pose proof (steps_sun n solve Solve solar thermal lin (tran N g) (tr (tran N g)) l (thin g old) i E ltac:(intros j _; unfold tr; rewrite E; reflexivity)
    ltac:(intros j Hj; apply IH; lia)) as St.
  refine (regular_of g old i _ _ _ G _ eq_refl _ St); [lia|reflexivity].
Qed.
Lemma thermal_regular : forall lin g old t k, slices_regular n ns N g -> thermal = true -> (k <= N)%nat ->
  forall i, (i < k)%nat -> regular n (hR (steps lin t (ln_ (lin_fac N g)) i (thin g old))) (hR (steps lin t (ln_ (lin_fac N g)) i (thin g old))).
Proof.
  intros lin g old t k G E Hk. induction k as [|k IH]; intros i Hi; [lia|].
  specialize (IH ltac:(lia)).
  destruct (steps_warm n solve Solve solar thermal lin t (lin_fac N g) (ln_ (lin_fac N g)) (thin g old) i E ltac:(intros j _; unfold ln_; rewrite E; reflexivity)
    ltac:(intros j Hj; apply IH; lia)) as (St & _ & _).
  refine (regular_of g old i _ _ _ G _ eq_refl _ St); [lia|reflexivity].
Qed.
Lemma turned_sun : forall lin g old l, solar = true ->
  (forall i, (i < N)%nat -> regular n (hR (steps lin (tr (tran N g)) l i (thin g old))) (hR (steps lin (tr (tran N g)) l i (thin g old)))) ->
  stands_for n (2 ^ N - 1) (sunlit ns F_0 qx N g) (turn (sign ns) (sun (steps lin (tr (tran N g)) l N (thin g old)))).
Proof.
  intros lin g old l E G.
  eapply stands_leq; [|apply leq_refl|].
  2: { eapply (proj1 (stands_turn n (sign ns) (sign_square ns) _ _ _)). apply steps_sun; [exact Solve|exact E|intros i _; unfold tr; rewrite E; reflexivity|exact G]. }
  intros k _. apply thin_sun. exact E.
Qed.
Lemma turned_warm : forall lin g old t, thermal = true -> (1 <= ns <= 2)%nat -> (planck0 g <> 0 \/ planck1 g = 0) ->
  (forall i, (i < N)%nat -> regular n (hR (steps lin t (ln_ (lin_fac N g)) i (thin g old))) (hR (steps lin t (ln_ (lin_fac N g)) i (thin g old)))) ->
  stands_for n (2 ^ N - 1) (emitting ns qx N g) (turn (sign ns) (warm_ (steps lin t (ln_ (lin_fac N g)) N (thin g old)))).
Proof.
  intros lin g old t E H P G.
  eapply stands_leq; [|apply leq_refl|].
  2: { eapply (proj1 (stands_turn n (sign ns) (sign_square ns) _ _ _)). apply steps_warm; [exact Solve|exact E|intros i _; unfold ln_; rewrite E; reflexivity|exact G]. }
  intros k _. apply thin_warm; assumption.
Qed.

(** Derivatives *)
Section Deriv.
Variables (G : R -> column) (p : R) (g_l : nat -> column) (old : sheet) (old_l : nat -> sheet) (junk : nat -> R) (j : nat).
Hypothesis Hj : (j < nd)%nat.
Let g := G p.
Notation thin_d := (thin_d ns F_0 qx N solar thermal vector nd dl db dt).
Let path := fun j => path_l N dl j g (g_l j).
Let s0 : state := {| values := thin g old; derivs := fun j => thin_d j g (g_l j) (old_l j);
  d_tran := tran N g; c_ := 1; d_tran_l := fun j => if flags_or nd db && (dl j || db j) then path j * tran N g else junk j;
  fac := lin_fac N g; fac_l := fun j => if dt j then lin_fac_l N g (g_l j) else junk j |}.
Lemma doub_is : doub_rts n solve ns F_0 qx N solar thermal vector nd dl db dt g g_l old old_l junk = (values (passes path N s0), derivs (passes path N s0)).
Proof. reflexivity. Qed.
(** the derivative flags that matter *)
Definition idle : Prop := dl j = false /\ (solar = true -> db j = false) /\ (thermal = true -> dt j = false).
Lemma linear_or_idle : linearized = true \/ linearized = false /\ idle.
Proof.
  unfold DoublingModel.linearized, idle. destruct (flags_or nd dl) eqn:A; [left; reflexivity|]. cbn [orb].
  destruct (solar && flags_or nd db) eqn:B; [left; reflexivity|]. destruct (thermal && flags_or nd dt) eqn:C; [left; reflexivity|]. right. split; [reflexivity|].
  split; [|split].
  - destruct (dl j) eqn:Q; [|reflexivity]. rewrite (or_some dl j Hj Q) in A. discriminate A.
  - intros E. destruct (db j) eqn:Q; [|reflexivity]. rewrite E, (or_some db j Hj Q) in B. discriminate B.
  - intros E. destruct (dt j) eqn:Q; [|reflexivity]. rewrite E, (or_some dt j Hj Q) in C. discriminate C.
Qed.
Notation X' := (X n solve solar thermal (fun s => thin (G s) old) (fun k s => tr (tran N (G s)) k) (fun k s => ln_ (lin_fac N (G s)) k)).
Notation Y' t_l l_l := (Y n solve solar thermal (dl j) (db j) (dt j) (fun s => thin (G s) old) (fun k s => tr (tran N (G s)) k) (fun k s => ln_ (lin_fac N (G s)) k) t_l l_l p (thin_d j g (g_l j) (old_l j))).
Let t_l := fun k => d_tran_l (passes path k s0) j.
Let l_l := fun k => fac_l (passes path k s0) j.
Lemma derivs_linear : linearized = true -> forall k, derivs (passes path k s0) j = Y' t_l l_l k.
Proof.
  intros E k. induction k as [|k IH]; [reflexivity|].
  rewrite passes_S. cbn [DoublingModel.pass derivs]. rewrite E. apply Nat.ltb_lt in Hj as Hj'. rewrite Hj'.
  cbn [Y]. rewrite <- IH. destruct (passes_facs path k s0) as [F1 F2]. rewrite F1, F2, passes_values, E. reflexivity.
Qed.
Lemma derivs_idle : linearized = false -> forall k, derivs (passes path k s0) j = thin_d j g (g_l j) (old_l j).
Proof. intros E k. induction k as [|k IH]; [reflexivity|]. rewrite passes_S. cbn [DoublingModel.pass derivs]. rewrite E. exact IH. Qed.
Lemma flagged_none : forall x y, flagged false false x = flagged false false y.
Proof. reflexivity. Qed.
Lemma sun_derivs : solar = true -> flagged (dl j) (db j) (sun (derivs (passes path N s0) j)) = flagged (dl j) (db j) (sun (Y' t_l l_l N)).
Proof.
  intros E. destruct linear_or_idle as [L|[L (I1 & I2 & _)]]; [rewrite derivs_linear by exact L; reflexivity|].
  rewrite I1, (I2 E). apply flagged_none.
Qed.
Lemma warm_derivs : thermal = true -> flagged (dl j) (dt j) (warm_ (derivs (passes path N s0) j)) = flagged (dl j) (dt j) (warm_ (Y' t_l l_l N)).
Proof.
  intros E. destruct linear_or_idle as [L|[L (I1 & _ & I2)]]; [rewrite derivs_linear by exact L; reflexivity|].
  rewrite I1, (I2 E). apply flagged_none.
Qed.

Lemma deriv_ext : forall f g a, (forall s, f s = g s) -> derivable_pt_lim f p a -> derivable_pt_lim g p a.
Proof. intros f h a E. apply deriv_around. apply around_true. exact E. Qed.
Hypothesis V : varies n (dl j) (db j) (dt j) G p (g_l j).
Let th s := thickness N (ltau (G s)).
Let th_l := thickness N (on (dl j) (ltau (g_l j))).
Lemma th_deriv : derivable_pt_lim th p th_l.
Proof.
  destruct V as (_ & _ & _ & _ & _ & D & _). unfold th, th_l, thickness, Rdiv. eapply dl_eq; [apply dl_mult; [exact D|apply dl_const]|cbv beta; ring].
Qed.
Lemma as_deriv : derivable_pt_lim (fun s => as_0 (G s)) p (on (db j) (as_0 (g_l j))).
Proof. destruct V as (_ & _ & _ & _ & _ & _ & D1 & D2 & _). destruct (db j); auto. Qed.
Lemma planck_deriv : derivable_pt_lim (fun s => planck0 (G s)) p (on (dt j) (planck0 (g_l j))) /\ derivable_pt_lim (fun s => planck1 (G s)) p (on (dt j) (planck1 (g_l j))).
Proof. destruct V as (_ & _ & _ & _ & _ & _ & _ & _ & D1 & D2). destruct (dt j); auto. Qed.
Lemma path_is : (dl j = true -> db j = true) -> or_on (db j) (path j) = - (th_l * as_0 g + th p * on (db j) (as_0 (g_l j))).
Proof.
  intros C. unfold path, path_l, th_l, th, or_on, on. fold g. destruct (dl j); [rewrite (C eq_refl); ring|].
  destruct (db j); unfold thickness, Rdiv; ring.
Qed.
Lemma tran_deriv : (dl j = true -> db j = true) -> derivable_pt_lim (fun s => tran N (G s)) p (or_on (db j) (path j) * tran N g).
Proof.
  intros C. rewrite (path_is C). apply (deriv_ext (fun s => exp (- (th s * as_0 (G s))))).
  - intros s. unfold tran. f_equal. unfold th. ring.
  - eapply dl_eq; [apply dl_exp_neg, dl_mult; [exact th_deriv|exact as_deriv]|]. unfold tran, th. fold g.
    replace (- thickness N (ltau g) * as_0 g) with (- (thickness N (ltau g) * as_0 g)) by ring. ring.
Qed.
Lemma tr_deriv : solar = true -> (dl j = true -> db j = true) -> forall k, derivable_pt_lim (fun s => tr (tran N (G s)) k) p (or_on (db j) (t_l k)).
Proof.
  intros E C k. apply (deriv_ext (fun s => exp (- (2 ^ k * (th s * as_0 (G s)))))).
  - intros s. unfold tr, tran. rewrite E, exp_pow, INR_pow2. f_equal. unfold th. ring.
  - eapply dl_eq; [apply dl_exp_neg, dl_mult; [apply dl_const|apply dl_mult; [exact th_deriv|exact as_deriv]]|].
    pose proof (path_is C) as P. unfold or_on in *. fold g. destruct (db j) eqn:B.
    + unfold t_l. rewrite passes_tran_l; [|exact E|exact Hj|exact B|reflexivity|].
      2: { cbn [s0 d_tran_l]. rewrite (or_some db j Hj B), B, orb_true_r. reflexivity. }
      cbn [s0 d_tran]. rewrite P. unfold tr, tran. rewrite E, exp_pow, INR_pow2.
      replace (2 ^ k * (- thickness N (ltau g) * as_0 g)) with (- (2 ^ k * (th p * as_0 g))) by (unfold th; fold g; ring). ring.
    + assert (th_l * as_0 g + th p * on false (as_0 (g_l j)) = 0) as -> by lra. ring.
Qed.
Lemma lin_deriv : planck0 g <> 0 -> derivable_pt_lim (fun s => lin_fac N (G s)) p (or_on (dt j) (lin_fac_l N g (g_l j))).
Proof.
  intros Z. destruct planck_deriv as [D0 D1].
  apply (deriv_around (fun s => (planck1 (G s) / planck0 (G s) - 1) * / 2 ^ N)).
  - assert (around p (fun s => planck0 (G s) <> 0)) as A.
    { destruct (continuous_neq_0 (fun s => planck0 (G s)) p) as [e He].
      - apply derivable_continuous_pt. exists (on (dt j) (planck0 (g_l j))). exact D0.
      - exact Z.
      - exists e. split; [apply cond_pos|]. intros t Ht. replace t with (p + (t - p)) by ring. apply He. exact Ht. }
    refine (around_imp _ _ _ _ A). intros s Hs. unfold lin_fac. destruct (Req_EM_T (planck0 (G s)) 0); [contradiction|reflexivity].
  - eapply dl_eq; [apply dl_mult; [apply dl_minus; [apply dl_div; [exact D1|exact D0|exact Z]|apply dl_const]|apply dl_const]|].
    cbv beta. fold g. unfold lin_fac_l, or_on, on. destruct (Req_EM_T (planck0 g) 0); [contradiction|].
    pose proof (pow_nonzero 2 N ltac:(lra)). destruct (dt j); field; auto.
Qed.
Lemma ln_deriv : thermal = true -> planck0 g <> 0 -> forall k, derivable_pt_lim (fun s => ln_ (lin_fac N (G s)) k) p (or_on (dt j) (l_l k)).
Proof.
  intros E Z k. apply (deriv_ext (fun s => lin_fac N (G s) * 2 ^ k)); [intros s; unfold ln_; rewrite E; reflexivity|].
  eapply dl_eq; [apply dl_mult; [apply lin_deriv; exact Z|apply dl_const]|]. unfold or_on, l_l. destruct (dt j) eqn:B; [|ring].
  rewrite passes_lin_l by assumption. cbn [s0 fac_l]. rewrite B. ring.
Qed.
Lemma R_deriv : mderiv n (fun s => hR (thin (G s) old)) p (if dl j then hR (thin_d j g (g_l j) (old_l j)) else zmat).
Proof.
  intros a b Ha Hb. destruct V as (D & _). specialize (D a b Ha Hb).
  apply (deriv_ext (fun s => - (sign ns a) * (th s * r_p (G s) a b))).
  - intros s. cbn [DoublingModel.thin hR]. rewrite stokes_R. unfold mscale, th. ring.
  - eapply dl_eq; [apply dl_mult; [apply dl_const|apply dl_mult; [exact th_deriv|exact D]]|].
    unfold th_l, th, on. cbn [DoublingModel.thin_d hR]. destruct (dl j); [rewrite stokes_R; unfold madd, mscale; fold g; ring|].
    unfold zmat, thickness, Rdiv. ring.
Qed.
Lemma T_deriv : mderiv n (fun s => hT (thin (G s) old)) p (if dl j then hT (thin_d j g (g_l j) (old_l j)) else zmat).
Proof.
  intros a b Ha Hb. destruct V as (_ & D & _). specialize (D a b Ha Hb).
  apply (deriv_ext (fun s => ident a b + th s * t_p (G s) a b)).
  - intros s. cbn [DoublingModel.thin hT]. rewrite i_sub_neg. reflexivity.
  - eapply dl_eq; [apply dl_plus; [apply dl_const|apply dl_mult; [exact th_deriv|exact D]]|].
    unfold th_l, th, on. cbn [DoublingModel.thin_d hT]. destruct (dl j); [unfold madd, mscale; fold g; ring|].
    unfold zmat, thickness, Rdiv. ring.
Qed.
Lemma beam_deriv : forall (P : column -> vec) a, (dl j = true -> db j = true) -> (dl j = false -> db j = true -> as_0 (g_l j) = 0) ->
  derivable_pt_lim (fun s => P (G s) a) p (if dl j then P (g_l j) a else 0) ->
  derivable_pt_lim (fun s => F_0 / (4 * PI) * omega (G s) * tran N (G s) * thickness N (ltau (G s)) * (P (G s) a / qx a)) p
    (on (dl j) ((F_0 / (4 * PI) * (omega (g_l j) * tran N g * thickness N (ltau g) + omega g * (path_l N dl j g (g_l j) * tran N g) * thickness N (ltau g) +
                   omega g * tran N g * thickness N (ltau (g_l j))) * P g a + F_0 / (4 * PI) * omega g * tran N g * thickness N (ltau g) * P (g_l j) a) / qx a)).
Proof.
  intros P a C B D. destruct V as (_ & _ & _ & _ & Dw & _). pose proof (tran_deriv C) as Dt.
  eapply dl_eq; [apply dl_mult; [apply dl_mult; [apply dl_mult; [apply dl_mult; [apply dl_const|exact Dw]|exact Dt]|exact th_deriv]|unfold Rdiv; apply dl_mult; [exact D|apply dl_const]]|].
  cbv beta. fold g. unfold th_l, or_on, on, path, path_l. destruct (dl j) eqn:L; [rewrite (C eq_refl)|destruct (db j); [rewrite (B eq_refl eq_refl)|]]; unfold thickness, Rdiv; ring.
Qed.
Lemma sun_thin_deriv : solar = true -> (dl j = true -> db j = true) -> (dl j = false -> db j = true -> as_0 (g_l j) = 0) ->
  lderiv n (fun s => sun (thin (G s) old)) p (flagged (dl j) (db j) (sun (thin_d j g (g_l j) (old_l j)))).
Proof.
  intros E C B. pose proof R_deriv as DR. pose proof T_deriv as DT.
  refine (conj DR (conj DT (conj _ (conj DR (conj DT _))))); cbn [sun sym flagged Sm Sp DoublingModel.thin DoublingModel.thin_d Se_m Se_p]; intros a Ha; rewrite E.
  - destruct V as (_ & _ & D & _). pose proof (beam_deriv P_mm a C B ltac:(destruct (dl j); apply D; exact Ha)) as K.
    apply (deriv_ext (fun s => sign ns a * (F_0 / (4 * PI) * omega (G s) * tran N (G s) * thickness N (ltau (G s)) * (P_mm (G s) a / qx a)))).
    { intros s. rewrite stokes_v. reflexivity. }
    eapply dl_eq; [apply dl_mult; [apply dl_const|exact K]|]. cbn [andb]. destruct (dl j) eqn:L; cbn [on].
    + rewrite (C eq_refl), (or_some db j Hj (C eq_refl)), stokes_v. unfold dinv, vadd, vscale. ring.
    + destruct (db j) eqn:Q; [rewrite (or_some db j Hj Q)|]; unfold zvec; ring.
  - destruct V as (_ & _ & _ & D & _). pose proof (beam_deriv P_pm a C B ltac:(destruct (dl j); apply D; exact Ha)) as K.
    apply (deriv_ext (fun s => F_0 / (4 * PI) * omega (G s) * tran N (G s) * thickness N (ltau (G s)) * (P_pm (G s) a / qx a))); [reflexivity|].
    eapply dl_eq; [exact K|]. cbn [andb]. destruct (dl j) eqn:L; cbn [on].
    + rewrite (C eq_refl), (or_some db j Hj (C eq_refl)). unfold dinv, vadd, vscale. ring.
    + destruct (db j) eqn:Q; [rewrite (or_some db j Hj Q)|]; unfold zvec; ring.
Qed.
Lemma warm_thin_deriv : thermal = true -> (dl j = true -> dt j = true) ->
  lderiv n (fun s => warm_ (thin (G s) old)) p (flagged (dl j) (dt j) (warm_ (thin_d j g (g_l j) (old_l j)))).
Proof.
  intros E C. pose proof R_deriv as DR. pose proof T_deriv as DT.
  assert (forall a, derivable_pt_lim (fun s => (1 - omega (G s)) * planck0 (G s) * thickness N (ltau (G s)) / qx a) p
    (on (dt j) ((if dl j then - omega (g_l j) * planck0 g * thickness N (ltau g) + (1 - omega g) * planck0 (g_l j) * thickness N (ltau g) + (1 - omega g) * planck0 g * thickness N (ltau (g_l j))
       else (1 - omega g) * planck0 (g_l j) * thickness N (ltau g)) / qx a))) as K.
  { intros a. destruct V as (_ & _ & _ & _ & Dw & _). destruct planck_deriv as [D0 _].
    unfold Rdiv. eapply dl_eq; [apply dl_mult; [apply dl_mult; [apply dl_mult; [apply dl_minus; [apply dl_const|exact Dw]|exact D0]|exact th_deriv]|apply dl_const]|].
    cbv beta. fold g. unfold th_l, on. destruct (dl j); [rewrite (C eq_refl)|destruct (dt j)]; unfold thickness, Rdiv; ring. }
  refine (conj DR (conj DT (conj _ (conj DR (conj DT _))))); cbn [warm_ sym flagged Sm Sp DoublingModel.thin DoublingModel.thin_d Sl_m Sl_p]; intros a Ha; rewrite E.
  - eapply dl_eq; [exact (K a)|]. cbn [andb]. destruct (dt j) eqn:Q; [|reflexivity]. rewrite (or_some dt j Hj Q), orb_true_r. reflexivity.
  - eapply dl_eq; [exact (K a)|]. cbn [andb]. destruct (dt j) eqn:Q; [|reflexivity]. rewrite (or_some dt j Hj Q), orb_true_r. reflexivity.
Qed.

(** The results *)
Lemma sun_pile : solar = true -> slices_regular n ns N g -> (dl j = true -> db j = true) -> (dl j = false -> db j = true -> as_0 (g_l j) = 0) ->
  pile_deriv n (2 ^ N - 1) (fun s => sunlit ns F_0 qx N (G s)) p (flagged (dl j) (db j) (solar_layer ns (derivs (passes path N s0) j))).
Proof.
  intros E Rg C B.
  destruct (sun_deriv n solve Solve solar thermal (dl j) (db j) (dt j) (fun s => thin (G s) old) (fun k s => tr (tran N (G s)) k) (fun k s => ln_ (lin_fac N (G s)) k) t_l l_l p
    (thin_d j g (g_l j) (old_l j)) E C (sun_thin_deriv E C B) N (fun k _ => tr_deriv E C k)) as [L D].
  { intros i Hi. exact (solar_regular true g old (ln_ (lin_fac N g)) N Rg E (le_n N) i Hi). }
  assert (around p (fun s => stands_for n (2 ^ N - 1) (sunlit ns F_0 qx N (G s)) (turn (sign ns) (sun (X' N s))))) as St.
  { refine (around_imp _ _ _ _ L). intros s Gs. exact (turned_sun true (G s) old (ln_ (lin_fac N (G s))) E Gs). }
  split; [refine (around_imp _ _ _ _ St); intros s H; eexists; exact H|].
  intros Cf HC. apply (lderiv_around n (fun s => turn (sign ns) (sun (X' N s)))).
  - refine (around_imp _ _ _ _ (around_and _ _ _ HC St)). intros s [H1 H2]. exact (stands_unique n _ _ _ _ H2 H1).
  - apply (lderiv_turn n (sign ns)) in D. eapply lderiv_ext; [|exact D]. rewrite <- (sun_derivs E). apply flagged_out.
Qed.
Lemma warm_pile : thermal = true -> slices_regular n ns N g -> (1 <= ns <= 2)%nat -> planck0 g <> 0 -> (dl j = true -> dt j = true) ->
  pile_deriv n (2 ^ N - 1) (fun s => emitting ns qx N (G s)) p (flagged (dl j) (dt j) (thermal_layer ns (derivs (passes path N s0) j))).
Proof.
  intros E Rg Hs Z C.
  destruct (warm_deriv n solve Solve solar thermal (dl j) (db j) (dt j) (fun s => thin (G s) old) (fun k s => tr (tran N (G s)) k) (fun k s => ln_ (lin_fac N (G s)) k) t_l l_l p
    (thin_d j g (g_l j) (old_l j)) E C (warm_thin_deriv E C) N (fun k _ => ln_deriv E Z k)) as (L & D & _).
  { intros i Hi. exact (thermal_regular true g old (tr (tran N g)) N Rg E (le_n N) i Hi). }
  assert (around p (fun s => planck0 (G s) <> 0)) as A.
  { destruct (continuous_neq_0 (fun s => planck0 (G s)) p) as [e He].
    - apply derivable_continuous_pt. eexists. exact (proj1 planck_deriv).
    - exact Z.
    - exists e. split; [apply cond_pos|]. intros t Ht. replace t with (p + (t - p)) by ring. apply He. exact Ht. }
  assert (around p (fun s => stands_for n (2 ^ N - 1) (emitting ns qx N (G s)) (turn (sign ns) (warm_ (X' N s))))) as St.
  { refine (around_imp _ _ _ _ (around_and _ _ _ L A)). intros s [Gs As]. exact (turned_warm true (G s) old (tr (tran N (G s))) E Hs (or_introl As) Gs). }
  split; [refine (around_imp _ _ _ _ St); intros s H; eexists; exact H|].
  intros Cf HC. apply (lderiv_around n (fun s => turn (sign ns) (warm_ (X' N s)))).
  - refine (around_imp _ _ _ _ (around_and _ _ _ HC St)). intros s [H1 H2]. exact (stands_unique n _ _ _ _ H2 H1).
  - apply (lderiv_turn n (sign ns)) in D. eapply lderiv_ext; [|exact D]. rewrite <- (warm_derivs E). apply flagged_thermal_out. exact Hs.
Qed.
Lemma sun_values : solar = true -> slices_regular n ns N g -> stands_for n (2 ^ N - 1) (sunlit ns F_0 qx N g) (solar_layer ns (values (passes path N s0))).
Proof.
  intros E Rg. rewrite passes_values. eapply stands_leq; [intros; apply leq_refl|apply solar_out|].
  apply (turned_sun linearized g old (ln_ (lin_fac N g)) E). exact (solar_regular linearized g old (ln_ (lin_fac N g)) N Rg E (le_n N)).
Qed.
Lemma warm_values : thermal = true -> slices_regular n ns N g -> (1 <= ns <= 2)%nat -> (planck0 g <> 0 \/ planck1 g = 0) ->
  stands_for n (2 ^ N - 1) (emitting ns qx N g) (thermal_layer ns (values (passes path N s0))).
Proof.
  intros E Rg Hs P. rewrite passes_values. eapply stands_leq; [intros; apply leq_refl|apply thermal_out; exact Hs|].
  apply (turned_warm linearized g old (tr (tran N g)) E Hs P). exact (thermal_regular linearized g old (tr (tran N g)) N Rg E (le_n N)).
Qed.
End Deriv.
End Rtm.
