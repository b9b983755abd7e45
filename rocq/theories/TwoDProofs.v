(** The derivatives of what the two-stream solver computes for a layer, and of the rows of its matrix *)
From Coq Require Import Reals Bool Arith List ZArith Lia Lra.
From Verif Require Import Base DeltaMSpec DeltaMProofs BeamProofs AddingModel AddingSpec AddingMat AddingCalls EigModel EigSpec EigMat EigProofs SingleProofs EigDProofs ScatModel GaussProofs
  TwoSpec TwoModel TwoProofs TwoLight TwoDSpec TwoDModel.
Import ListNotations.
Open Scope R_scope.

Lemma dl_opp : forall f p a, derivable_pt_lim f p a -> derivable_pt_lim (fun s => - f s) p (- a).
Proof. intros f p a H. exact (derivable_pt_lim_opp f p a H). Qed.
Lemma dl_sqrt : forall f p a, derivable_pt_lim f p a -> 0 < f p -> derivable_pt_lim (fun s => sqrt (f s)) p (a / (2 * sqrt (f p))).
Proof.
  intros f p a H P. eapply dl_eq; [exact (derivable_pt_lim_comp f sqrt p _ _ H (derivable_pt_lim_sqrt (f p) P))|]. field. apply Rgt_not_eq. apply sqrt_lt_R0. exact P.
Qed.
Ltac ddx := lazymatch goal with
  | |- derivable_pt_lim (fun _ => ?c) _ _ => apply dl_const
  | |- derivable_pt_lim (fun s => @?f s + @?g s) _ _ => eapply (dl_plus f g); ddx
  | |- derivable_pt_lim (fun s => @?f s - @?g s) _ _ => eapply (dl_minus f g); ddx
  | |- derivable_pt_lim (fun s => @?f s * @?g s) _ _ => eapply (dl_mult f g); ddx
  | |- derivable_pt_lim (fun s => @?f s / @?g s) _ _ => eapply (dl_div f g); [ddx|ddx|]
  | |- derivable_pt_lim (fun s => - @?f s) _ _ => eapply (dl_opp f); ddx
  | |- derivable_pt_lim (fun s => exp (@?f s)) _ _ => eapply (dl_exp f); ddx
  | |- _ => eassumption end.

(** * The values of a layer, in closed form *)
Definition a10 (d : deck) (k : nat) : R := t_F0 d / (4 * PI) / t_qx d * t_omega d k * t_btran d k.
Definition a15 (d : deck) (k : nat) : R := (t_as0 d k + al d k) * (t_as0 d k - al d k) + be d k * be d k.
Definition rate (d : deck) (k : nat) : R := sqrt (al d k * al d k - be d k * be d k).
Definition mode (d : deck) (k : nat) : R := (rate d k + (al d k + be d k)) / (rate d k - (al d k + be d k)).
Definition fp (d : deck) (k : nat) : R := (a10 d k * qpm d k * (t_as0 d k + al d k) + be d k * (a10 d k * qmm d k)) / a15 d k.
Definition fm (d : deck) (k : nat) : R := (a10 d k * qmm d k * - (t_as0 d k - al d k) + be d k * (a10 d k * qpm d k)) / a15 d k.
Definition wav (d : deck) (k : nat) : wave :=
  {| w_nu := rate d k; w_Xp := mode d k; w_Xm := 1; w_L := exp (- rate d k * t_ltau d k); w_Fp := 0 + fp d k; w_Fm := 0 + fm d k |}.
Definition half (d : deck) : R := (1 + (if (t_four d =? 0)%nat then 1 else 0)) / 4 / t_qx d.
Lemma al_is : forall d k, 0 < t_qx d < 1 -> -1 / t_qx d + half d * t_omega d k * pp d k = al d k.
Proof. intros d k Q. unfold half, al, cs. field. lra. Qed.
Lemma be_is : forall d k, 0 < t_qx d < 1 -> - half d * t_omega d k * mp d k = be d k.
Proof. intros d k Q. unfold half, be, cs. field. lra. Qed.
Lemma facts : forall d m g k, tame d m true g -> (k <= m)%nat -> 0 < al d k * al d k - be d k * be d k /\ 0 < rate d k /\ rate d k - (al d k + be d k) <> 0 /\ a15 d k <> 0.
Proof.
  intros d m g k T Hk. destruct (each_ok d m true g T k Hk) as (_ & W & _ & Sh). pose proof (qx_ok d m true g T) as Q. destruct (slopes d k Q W Sh) as (S1 & S2).
  destruct (beam_ok d m true g T eq_refl k Hk) as (_ & Re & _). rewrite decay_is in Re by exact Q.
  assert (0 < al d k * al d k - be d k * be d k) as P by nra. assert (0 < rate d k) as P2 by (apply sqrt_lt_R0; exact P). refine (conj P (conj P2 (conj _ _))); [lra|]. unfold a15. intros E. apply Re. lra.
Qed.
Lemma layer_is : forall d m g nc k, tame d m true g -> (1 < nc)%nat -> (k <= m)%nat -> layer d nc true k = Answer (wav d k).
Proof.
  intros d m g nc k T NC Hk. destruct (facts d m g k T Hk) as (P & P2 & N1 & N2). pose proof (qx_ok d m true g T) as Q.
  unfold layer, coefficient. destruct (Nat.ltb_spec 1 nc); [|lia]. cbn [bind]. rewrite (phases_ok d k (four_ok d m true g T) Q (mu0_ok d m true g T)). cbn [bind]. fold (half d). cbv zeta.
  rewrite (al_is d k Q), (be_is d k Q). rewrite root_ok by lra. cbn [bind]. fold (rate d k). rewrite over_ok by exact N1. cbn [bind]. fold (a10 d k). fold (a15 d k). rewrite !over_ok by exact N2. reflexivity.
Qed.
Lemma layers_are : forall d m g nc, tame d m true g -> (1 < nc)%nat -> forall K, (K <= S m)%nat -> exists ws, layers d nc true K = Answer ws /\ forall k, (k < K)%nat -> ws k = wav d k.
Proof.
  intros d m g nc T NC. induction K as [|K IH]; intros HK; [eexists; split; [reflexivity|intros; lia]|]. destruct (IH ltac:(lia)) as (ws & E & H). cbn [layers]. rewrite E. cbn [bind].
  rewrite (layer_is d m g nc K T NC ltac:(lia)). cbn [bind]. eexists. split; [reflexivity|]. intros k Hk. cbv beta. destruct (Nat.eqb_spec k K) as [->|NE]; [reflexivity|apply H; lia].
Qed.

(** * Their derivatives *)
Definition wderiv (F : R -> wave) (p : R) (w : wave_l) : Prop :=
  derivable_pt_lim (fun s => w_nu (F s)) p (wl_nu w) /\ derivable_pt_lim (fun s => w_Xp (F s)) p (wl_Xp w) /\ derivable_pt_lim (fun s => w_Xm (F s)) p (wl_Xm w) /\
  derivable_pt_lim (fun s => w_L (F s)) p (wl_L w) /\ derivable_pt_lim (fun s => w_Fp (F s)) p (wl_Fp w) /\ derivable_pt_lim (fun s => w_Fm (F s)) p (wl_Fm w).
(** What is read of the derivatives of a layer *)
Definition eff (b : bool) (w : wave_l) : wave_l :=
  {| wl_nu := when b (wl_nu w); wl_Xp := when b (wl_Xp w); wl_Xm := when b (wl_Xm w); wl_L := when b (wl_L w); wl_Fp := wl_Fp w; wl_Fm := wl_Fm w |}.

Section Layer.
Variables (m : nat) (fl : varied) (D : R -> deck) (G : R -> ground) (p : R) (dl : deck_l).
Hypothesis Dep : depends m fl D G p dl.
Hypothesis Mk : marks m fl dl.
Hypothesis T : tame (D p) m true (G p).
Notation d := (D p).
Lemma same : forall s, t_four (D s) = t_four d /\ t_qx (D s) = t_qx d /\ t_F0 (D s) = t_F0 d /\ t_mu0 (D s) = t_mu0 d. Proof. apply Dep. Qed.
Section K.
Variable k : nat.
Hypothesis Hk : (k <= m)%nat.
Notation chi' := (when (v_layer fl k) (l_coef dl k)).
Notation om' := (when (v_layer fl k) (l_omega dl k)).
Notation lt' := (when (v_layer fl k) (l_ltau dl k)).
Notation as' := (when (v_beam fl k) (l_as0 dl k)).
Notation bt' := (when (v_beam fl k) (l_btran dl k)).
Definition pp' : R := if (t_four d =? 0)%nat then chi' * (t_qx d * t_qx d) else chi' * (1 - t_qx d * t_qx d).
Definition mp' : R := if (t_four d =? 0)%nat then - (chi' * (t_qx d * t_qx d)) else chi' * (1 - t_qx d * t_qx d).
Definition qmm' : R := if (t_four d =? 0)%nat then chi' * (t_qx d * t_mu0 d) else chi' * slant d.
Definition qpm' : R := if (t_four d =? 0)%nat then - (chi' * (t_qx d * t_mu0 d)) else chi' * slant d.
Definition al' : R := half d * (om' * pp d k + t_omega d k * pp').
Definition be' : R := - half d * (om' * mp d k + t_omega d k * mp').
Definition a10' : R := t_F0 d / (4 * PI) / t_qx d * (om' * t_btran d k + t_omega d k * bt').
Definition a15' : R := (as' + al') * (t_as0 d k - al d k) + (t_as0 d k + al d k) * (as' - al') + 2 * be' * be d k.
Definition nu' : R := (2 * al' * al d k - 2 * be' * be d k) / (2 * rate d k).
Definition Xp' : R := ((nu' + (al' + be')) - mode d k * (nu' - (al' + be'))) / (rate d k - (al d k + be d k)).
Definition La' : R := (- nu' * t_ltau d k - rate d k * lt') * exp (- rate d k * t_ltau d k).
Definition a11' : R := a10' * qpm d k + a10 d k * qpm'.
Definition a12' : R := a10' * qmm d k + a10 d k * qmm'.
Definition fp' : R := ((a11' * (t_as0 d k + al d k) + a10 d k * qpm d k * (as' + al') + be' * (a10 d k * qmm d k) + be d k * a12') - fp d k * a15') / a15 d k.
Definition fm' : R := ((a12' * - (t_as0 d k - al d k) + a10 d k * qmm d k * - (as' - al') + be' * (a10 d k * qpm d k) + be d k * a11') - fm d k * a15') / a15 d k.
Lemma ins : derivable_pt_lim (fun s => t_coef (D s) k 1%nat) p chi' /\ derivable_pt_lim (fun s => t_omega (D s) k) p om' /\ derivable_pt_lim (fun s => t_ltau (D s) k) p lt' /\
  derivable_pt_lim (fun s => t_as0 (D s) k) p as' /\ derivable_pt_lim (fun s => t_atran (D s) k) p (when (v_beam fl k) (l_atran dl k)) /\ derivable_pt_lim (fun s => t_btran (D s) k) p bt'.
Proof using Dep Hk. destruct Dep as (_ & H & B & _). destruct (H k Hk) as (A1 & A2 & A3 & A4 & A5). refine (conj A1 (conj A2 (conj A3 (conj A4 (conj A5 (B k _)))))). lia. Qed.
Lemma d_pp : derivable_pt_lim (fun s => pp (D s) k) p pp' /\ derivable_pt_lim (fun s => mp (D s) k) p mp'.
Proof using Dep Hk.
  destruct ins as (C & _). unfold pp', mp'. split.
  - apply (eq_around (fun s => if (t_four d =? 0)%nat then 1 + t_coef (D s) k 1%nat * (t_qx d * t_qx d) else t_coef (D s) k 1%nat * (1 - t_qx d * t_qx d))).
    + apply around_true. intros s. unfold pp. destruct (same s) as (-> & -> & _). reflexivity.
    + destruct (t_four d =? 0)%nat; (eapply dl_eq; [ddx|cbv beta; ring]).
  - apply (eq_around (fun s => if (t_four d =? 0)%nat then 1 - t_coef (D s) k 1%nat * (t_qx d * t_qx d) else t_coef (D s) k 1%nat * (1 - t_qx d * t_qx d))).
    + apply around_true. intros s. unfold mp. destruct (same s) as (-> & -> & _). reflexivity.
    + destruct (t_four d =? 0)%nat; (eapply dl_eq; [ddx|cbv beta; ring]).
Qed.
Lemma d_q : derivable_pt_lim (fun s => qmm (D s) k) p qmm' /\ derivable_pt_lim (fun s => qpm (D s) k) p qpm'.
Proof using Dep Hk.
  destruct ins as (C & _). unfold qmm', qpm'. split.
  - apply (eq_around (fun s => if (t_four d =? 0)%nat then 1 + t_coef (D s) k 1%nat * (t_qx d * t_mu0 d) else t_coef (D s) k 1%nat * slant d)).
    + apply around_true. intros s. unfold qmm, slant. destruct (same s) as (-> & -> & _ & ->). reflexivity.
    + destruct (t_four d =? 0)%nat; (eapply dl_eq; [ddx|cbv beta; ring]).
  - apply (eq_around (fun s => if (t_four d =? 0)%nat then 1 - t_coef (D s) k 1%nat * (t_qx d * t_mu0 d) else t_coef (D s) k 1%nat * slant d)).
    + apply around_true. intros s. unfold qpm, slant. destruct (same s) as (-> & -> & _ & ->). reflexivity.
    + destruct (t_four d =? 0)%nat; (eapply dl_eq; [ddx|cbv beta; ring]).
Qed.
Lemma d_al : derivable_pt_lim (fun s => al (D s) k) p al' /\ derivable_pt_lim (fun s => be (D s) k) p be'.
Proof using Dep Hk T.
  destruct ins as (_ & O & _). destruct d_pp as (P1 & P2). pose proof (qx_ok d m true (G p) T) as Q. split.
  - apply (eq_around (fun s => -1 / t_qx d + half d * t_omega (D s) k * pp (D s) k)).
    + apply around_true. intros s. rewrite <- (al_is (D s) k) by (destruct (same s) as (_ & -> & _); exact Q). unfold half. destruct (same s) as (-> & -> & _). reflexivity.
    + eapply dl_eq; [ddx|]. unfold al'. cbv beta. ring.
  - apply (eq_around (fun s => - half d * t_omega (D s) k * mp (D s) k)).
    + apply around_true. intros s. rewrite <- (be_is (D s) k) by (destruct (same s) as (_ & -> & _); exact Q). unfold half. destruct (same s) as (-> & -> & _). reflexivity.
    + eapply dl_eq; [ddx|]. unfold be'. cbv beta. ring.
Qed.
Lemma d_a10 : derivable_pt_lim (fun s => a10 (D s) k) p a10'.
Proof using Dep Hk.
  destruct ins as (_ & O & _ & _ & _ & B). apply (eq_around (fun s => t_F0 d / (4 * PI) / t_qx d * t_omega (D s) k * t_btran (D s) k)).
  - apply around_true. intros s. unfold a10. destruct (same s) as (_ & -> & -> & _). reflexivity.
  - eapply dl_eq; [ddx|]. unfold a10'. cbv beta. ring.
Qed.
Lemma d_a15 : derivable_pt_lim (fun s => a15 (D s) k) p a15'.
Proof using Dep Hk T. destruct ins as (_ & _ & _ & A & _). destruct d_al as (P1 & P2). unfold a15. eapply dl_eq; [ddx|]. unfold a15'. cbv beta. ring. Qed.
Lemma d_rate : derivable_pt_lim (fun s => rate (D s) k) p nu'.
Proof using Dep Hk T.
  destruct d_al as (P1 & P2). destruct (facts d m (G p) k T Hk) as (P & P3 & _). unfold rate. eapply dl_eq; [apply (dl_sqrt (fun s => al (D s) k * al (D s) k - be (D s) k * be (D s) k)); [ddx|exact P]|].
  cbv beta. fold (rate d k). unfold nu'. field. lra.
Qed.
Lemma d_mode : derivable_pt_lim (fun s => mode (D s) k) p Xp'.
Proof using Dep Hk T.
  destruct d_al as (P1 & P2). pose proof d_rate as P3. destruct (facts d m (G p) k T Hk) as (_ & _ & N & _). unfold mode. eapply dl_eq; [ddx; exact N|]. unfold Xp', mode. cbv beta. field. exact N.
Qed.
Lemma d_La : derivable_pt_lim (fun s => exp (- rate (D s) k * t_ltau (D s) k)) p La'.
Proof using Dep Hk T. destruct ins as (_ & _ & L & _). pose proof d_rate as P3. eapply dl_eq; [ddx|]. unfold La'. cbv beta. ring. Qed.
Lemma d_F : derivable_pt_lim (fun s => fp (D s) k) p fp' /\ derivable_pt_lim (fun s => fm (D s) k) p fm'.
Proof using Dep Hk T.
  destruct ins as (_ & _ & _ & A & _). destruct d_al as (P1 & P2). destruct d_q as (Q1 & Q2). pose proof d_a10 as A10. pose proof d_a15 as A15. destruct (facts d m (G p) k T Hk) as (_ & _ & _ & N).
  split; [unfold fp|unfold fm]; (eapply dl_eq; [ddx; exact N|]); [unfold fp', fp|unfold fm', fm]; unfold a11', a12'; cbv beta; field; exact N.
Qed.
(** The code computes these derivatives. *)
Lemma layer_l_is : forall nc junk, (1 < nc)%nat -> exists w, layer_l d dl fl nc true junk k (wav d k) = Answer w /\ wderiv (fun s => wav (D s) k) p (eff (v_layer fl k) w) /\
  (v_beam fl k = false -> wl_Fp w = 0 /\ wl_Fm w = 0).
Proof using Dep Mk Hk T.
  intros nc junk NC. destruct (facts d m (G p) k T Hk) as (P & P2 & N1 & N2). pose proof (qx_ok d m true (G p) T) as Q. destruct d_F as (F1 & F2). pose proof d_La as DL. pose proof d_mode as DX. pose proof d_rate as DN.
  assert (forall w, w = {| wl_nu := nu'; wl_Xp := Xp'; wl_Xm := 0; wl_L := La'; wl_Fp := fp'; wl_Fm := fm' |} -> wderiv (fun s => wav (D s) k) p w) as WD.
  { intros w ->. unfold wderiv, wav. cbn [w_nu w_Xp w_Xm w_L w_Fp w_Fm wl_nu wl_Xp wl_Xm wl_L wl_Fp wl_Fm]. refine (conj DN (conj DX (conj (dl_const 1 p) (conj DL (conj _ _))))); (eapply dl_eq; [ddx|ring]). }
  unfold layer_l, coefficient. destruct (Nat.ltb_spec 1 nc); [|lia]. cbn [bind]. rewrite (phases_ok d k (four_ok d m true (G p) T) Q (mu0_ok d m true (G p) T)). cbn [bind]. fold (half d). cbv zeta.
  rewrite (al_is d k Q), (be_is d k Q). fold (a10 d k). fold (a15 d k). fold (slant d).
  destruct (v_layer fl k) eqn:EL.
  - assert (v_beam fl k = true) as EB by (apply Mk; assumption).
    assert ((if (t_four d =? 0)%nat then (l_coef dl k * (t_qx d * t_qx d), - (l_coef dl k * (t_qx d * t_qx d))) else (l_coef dl k * (1 - t_qx d * t_qx d), l_coef dl k * (1 - t_qx d * t_qx d))) = (pp', mp')) as ->.
    { unfold pp', mp', when. rewrite EL. destruct (t_four d =? 0)%nat; reflexivity. }
    assert ((if (t_four d =? 0)%nat then (l_coef dl k * (t_qx d * t_mu0 d), - (l_coef dl k * (t_qx d * t_mu0 d))) else (l_coef dl k * slant d, l_coef dl k * slant d)) = (qmm', qpm')) as ->.
    { unfold qmm', qpm', when. rewrite EL. destruct (t_four d =? 0)%nat; reflexivity. }
    assert (half d * (l_omega dl k * pp d k + t_omega d k * pp') = al') as -> by (unfold al', when; rewrite EL; reflexivity).
    assert (- half d * (l_omega dl k * mp d k + t_omega d k * mp') = be') as -> by (unfold be', when; rewrite EL; reflexivity).
    assert (t_F0 d / (4 * PI) / t_qx d * (l_omega dl k * t_btran d k + t_omega d k * l_btran dl k) = a10') as -> by (unfold a10', when; rewrite EL, EB; reflexivity).
    cbn [wav w_nu w_Xp w_Xm w_L w_Fp w_Fm]. rewrite over_ok by lra. cbn [bind]. rewrite over_ok by exact N1. cbn [bind]. rewrite !over_ok by exact N2. cbn [bind].
    eexists. split; [reflexivity|]. split; [|rewrite EB; discriminate]. apply WD. unfold eff, when at 1 2 3 4. cbn [wl_nu wl_Xp wl_Xm wl_L wl_Fp wl_Fm].
    rewrite !Rplus_0_l. unfold fp', fm', a11', a12', a15', La', nu', Xp', nu'. unfold when. rewrite EL, EB. reflexivity.
  - assert (pp' = 0 /\ mp' = 0 /\ qmm' = 0 /\ qpm' = 0) as (Z1 & Z2 & Z3 & Z4) by (unfold pp', mp', qmm', qpm', when; rewrite EL; destruct (t_four d =? 0)%nat; refine (conj _ (conj _ (conj _ _))); ring).
    assert (al' = 0 /\ be' = 0) as (Z5 & Z6) by (unfold al', be', when; rewrite EL, Z1, Z2; split; ring).
    assert (nu' = 0) as Z7 by (unfold nu'; rewrite Z5, Z6; field; lra).
    assert (Xp' = 0) as Z8 by (unfold Xp'; rewrite Z5, Z6, Z7; field; exact N1).
    assert (La' = 0) as Z9 by (unfold La', when; rewrite EL, Z7; ring).
    cbn [andb]. destruct (v_beam fl k) eqn:EB.
    + cbn [wav w_nu w_Xp w_Xm w_L w_Fp w_Fm]. rewrite !over_ok by exact N2. cbn [bind]. eexists. split; [reflexivity|]. split; [|discriminate]. apply WD. unfold eff, when at 1 2 3 4. cbn [wl_nu wl_Xp wl_Xm wl_L wl_Fp wl_Fm].
      rewrite Z7, Z8, Z9. f_equal; [unfold fp'|unfold fm']; unfold a15', a11', a12', a10', when; rewrite EL, EB, Z3, Z4, Z5, Z6; field; repeat split; first [exact N2|apply PI_neq0|lra].
    + eexists. split; [reflexivity|]. split; [|intros _; split; reflexivity]. apply WD. unfold eff, when at 1 2 3 4. cbn [wl_nu wl_Xp wl_Xm wl_L wl_Fp wl_Fm].
      rewrite Z7, Z8, Z9. f_equal; [unfold fp'|unfold fm']; unfold a15', a11', a12', a10', when; rewrite EL, EB, Z3, Z4, Z5, Z6; field; repeat split; first [exact N2|apply PI_neq0|lra].
Qed.
End K.
Lemma layers_l_are : forall nc junk ws, (1 < nc)%nat -> (forall k, (k <= m)%nat -> ws k = wav d k) -> forall K, (K <= S m)%nat ->
  exists wl, layers_l d dl fl nc true junk ws K = Answer wl /\ forall k, (k < K)%nat -> wderiv (fun s => wav (D s) k) p (eff (v_layer fl k) (wl k)) /\ (v_beam fl k = false -> wl_Fp (wl k) = 0 /\ wl_Fm (wl k) = 0).
Proof using Dep Mk T.
  intros nc junk ws NC H. induction K as [|K IH]; intros HK; [eexists; split; [reflexivity|intros; lia]|]. destruct (IH ltac:(lia)) as (wl & E & I). cbn [layers_l]. rewrite E. cbn [bind].
  rewrite H by lia. destruct (layer_l_is K ltac:(lia) nc junk NC) as (w & Ew & Hw). rewrite Ew. cbn [bind]. eexists. split; [reflexivity|]. intros k Hk. cbv beta. destruct (Nat.eqb_spec k K) as [->|NE]; [exact Hw|apply I; lia].
Qed.
End Layer.
