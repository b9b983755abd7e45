(** The derivative of one layer's integral, and what the code computes for it *)
From Coq Require Import Reals Bool Arith List ZArith Lia Lra.
From Verif Require Import Base DeltaMSpec DeltaMProofs BeamProofs SingleProofs AddingModel AddingSpec EigModel EigSpec ScatModel TwoSpec TwoModel TwoProofs TwoLight TwoProperties TwoDSpec TwoDModel TwoDProofs TwoDSolve
  ViewSpec ViewModel ViewProofs ViewDSpec ViewDModel.
Open Scope R_scope.

(** The light that leaves a layer, with the transmittance of the beam as it is stored *)
Definition leaves_up (d : deck) (once : bool) (u : R) (k : nat) (w : wave) (b : vec) (c : R) : R :=
  c * exp (- t_ltau d k / u) + beam_up d true once u k w (t_F0 d) * ((1 - t_atran d k * exp (- t_ltau d k / u)) / (1 + u * t_as0 d k)) +
  one_up d u k w b * ((1 - exp (- w_nu w * t_ltau d k) * exp (- t_ltau d k / u)) / (1 + u * w_nu w)) + two_up d u k w b * ((exp (- w_nu w * t_ltau d k) - exp (- t_ltau d k / u)) / (1 - u * w_nu w)).
Definition leaves_down (d : deck) (once : bool) (u : R) (k : nat) (w : wave) (b : vec) (c : R) : R :=
  c * exp (- t_ltau d k / u) + beam_down d true once u k w (t_F0 d) * ((exp (- t_as0 d k * t_ltau d k) - exp (- t_ltau d k / u)) / (1 - u * t_as0 d k)) +
  one_down d u k w b * ((exp (- w_nu w * t_ltau d k) - exp (- t_ltau d k / u)) / (1 - u * w_nu w)) + two_down d u k w b * ((1 - exp (- w_nu w * t_ltau d k) * exp (- t_ltau d k / u)) / (1 + u * w_nu w)).
Lemma leaves_up_is : forall d once u k w b c, 0 < u -> t_atran d k = exp (- t_as0 d k * t_ltau d k) -> up_at d true once u k w b (t_F0 d) c 0 = leaves_up d once u k w b c.
Proof.
  intros d once u k w b c U A. unfold up_at, leaves_up. rewrite A, !Rmult_0_r, Rminus_0_r, exp_0. replace ((0 - t_ltau d k) / u) with (- t_ltau d k / u) by (unfold Rdiv; ring). reflexivity.
Qed.
Lemma leaves_down_is : forall d once u k w b c, down_at d true once u k w b (t_F0 d) c (t_ltau d k) = leaves_down d once u k w b c.
Proof. intros d once u k w b c. unfold down_at, leaves_down. replace (t_ltau d k - t_ltau d k) with 0 by ring. rewrite Rmult_0_r, exp_0. reflexivity. Qed.

Lemma dl_quo : forall f g s a b, derivable_pt_lim f s a -> derivable_pt_lim g s b -> g s <> 0 -> derivable_pt_lim (fun x => f x / g x) s ((a - f s / g s * b) / g s).
Proof. intros f g s a b F H N. eapply dl_eq; [apply (dl_div f g s a b); assumption|]. field. exact N. Qed.
Ltac ddq := lazymatch goal with
  | |- derivable_pt_lim (fun _ => ?c) _ _ => apply dl_const
  | |- derivable_pt_lim (fun s => @?f s + @?g s) _ _ => eapply (dl_plus f g); ddq
  | |- derivable_pt_lim (fun s => @?f s - @?g s) _ _ => eapply (dl_minus f g); ddq
  | |- derivable_pt_lim (fun s => @?f s * @?g s) _ _ => eapply (dl_mult f g); ddq
  | |- derivable_pt_lim (fun s => @?f s / @?g s) _ _ => eapply (dl_quo f g); [ddq|ddq|]
  | |- derivable_pt_lim (fun s => - @?f s) _ _ => eapply (dl_opp f); ddq
  | |- derivable_pt_lim (fun s => exp (@?f s)) _ _ => eapply (dl_exp f); ddq
  | |- _ => eassumption end.

Section Layer.
Variables (n_coef m : nat) (fl : varied) (D : R -> deck) (G : R -> ground) (p : R) (dl : deck_l).
Hypothesis NC : (1 < n_coef)%nat.
Hypothesis Dep : depends m fl D G p dl.
Hypothesis Mk : marks m fl dl.
Variables (umu : vec) (once : bool) (j k : nat).
Hypothesis Hk : (k <= m)%nat.
Notation d := (D p).
Hypothesis Q : 0 < t_qx d < 1.
Hypothesis M : 0 < t_mu0 d <= 1.
Hypothesis U : 0 < umu j <= 1.
Hypothesis Thick : v_layer fl k = true -> t_ltau d k <> 0.
Variables (WS : R -> nat -> wave) (VS : R -> vec) (wl : nat -> wave_l) (y : vec).
Hypothesis DW : wderiv (fun s => WS s k) p (eff (v_layer fl k) (wl k)).
Hypothesis Un : v_beam fl k = false -> wl_Fp (wl k) = 0 /\ wl_Fm (wl k) = 0.
Hypothesis Gr : derivable_pt_lim (fun s => VS s (2 * k)%nat) p (y (2 * k)%nat) /\ derivable_pt_lim (fun s => VS s (2 * k + 1)%nat) p (y (2 * k + 1)%nat).
Hypothesis N : 0 < w_nu (WS p k).
Hypothesis N1 : umu j * w_nu (WS p k) <> 1.
Hypothesis A1 : umu j * t_as0 d k <> 1 /\ umu j * t_as0 d k <> -1.
Notation u := (umu j).
Definition vq' : R := if (t_four d =? 0)%nat then l_coef dl k * (u * t_qx d) else l_coef dl k * (side u * sqrt (1 - t_qx d * t_qx d)).
Definition v0' : R := if (t_four d =? 0)%nat then l_coef dl k * (u * t_mu0 d) else l_coef dl k * (side u * sqrt (1 - t_mu0 d * t_mu0 d)).
Definition back (x : R) : R := if (t_four d =? 0)%nat then - x else x.
Lemma view_phases_l_ok : view_phases_l d dl n_coef umu j k = Answer (vq', back vq', v0', back v0').
Proof using NC Q M U.
  clear -NC Q M U. unfold view_phases_l. rewrite !root_ok by nra. cbn [bind]. destruct (Nat.ltb_spec 1 n_coef); [|lia]. cbn [bind]. unfold vq', v0', back, side. destruct (t_four d =? 0)%nat; reflexivity.
Qed.
Lemma d_phases : derivable_pt_lim (fun s => vpp (D s) u k) p (when (v_layer fl k) vq') /\ derivable_pt_lim (fun s => vmp (D s) u k) p (when (v_layer fl k) (back vq')) /\
  derivable_pt_lim (fun s => vmm0 (D s) u k) p (when (v_layer fl k) v0') /\ derivable_pt_lim (fun s => vpm0 (D s) u k) p (when (v_layer fl k) (back v0')).
Proof using Dep Hk.
  clear -Dep Hk. destruct Dep as (Sm & In & _). destruct (In k Hk) as (D1 & _). unfold vpp, vmp, vmm0, vpm0, vq', v0', back.
  assert (forall f, derivable_pt_lim (fun s => f (t_four (D s)) (t_qx (D s)) (t_mu0 (D s)) (t_coef (D s) k 1%nat)) p = derivable_pt_lim (fun s => f (t_four d) (t_qx d) (t_mu0 d) (t_coef (D s) k 1%nat)) p) as E.
  { intros f. f_equal. apply FunctionalExtensionality.functional_extensionality. intros s. destruct (Sm s) as (-> & -> & _ & ->). reflexivity. }
  rewrite (E (fun a q mu c => if (a =? 0)%nat then 1 + c * (u * q) else c * (side u * sqrt (1 - q * q)))), (E (fun a q mu c => if (a =? 0)%nat then 1 - c * (u * q) else c * (side u * sqrt (1 - q * q)))),
    (E (fun a q mu c => if (a =? 0)%nat then 1 + c * (u * mu) else c * (side u * sqrt (1 - mu * mu)))), (E (fun a q mu c => if (a =? 0)%nat then 1 - c * (u * mu) else c * (side u * sqrt (1 - mu * mu)))).
  unfold when in *. destruct (t_four d =? 0)%nat; repeat split; (eapply dl_eq; [ddx|]); destruct (v_layer fl k); ring.
Qed.
Lemma same_path : forall s, aa (D s) = aa d /\ t_F0 (D s) = t_F0 d.
Proof. intros s. destruct Dep as (Sm & _). destruct (Sm s) as (E & _ & -> & _). unfold aa. rewrite E. split; reflexivity. Qed.
(** The derivative of the light that leaves the layer, if [C] enters *)
Lemma call_up_l : forall C c' e, derivable_pt_lim C p (c' + e) -> exists l, layer_call_l d dl fl n_coef true m umu once j false (WS p) wl (VS p) y k (C p) c' = Answer (leaves_up d once u k (WS p k) (VS p) (C p), l) /\
  derivable_pt_lim (fun s => leaves_up (D s) once u k (WS s k) (VS s) (C s)) p (l + (e * exp (- t_ltau d k / u) + when (bent fl k) (overlooked_up d dl u (beam_up d true once u k (WS p k) (t_F0 d)) k))).
Proof.
  intros C c' e DC. unfold layer_call_l. destruct (Nat.ltb_spec m k); [lia|]. rewrite view_phases_ok by assumption. cbn [bind]. rewrite view_phases_l_ok. cbn [bind]. cbv zeta.
  unfold sfi_layer_l. rewrite over_ok by lra. cbn [bind]. assert (1 + u * t_as0 d k <> 0) as A2 by lra. assert (1 - u * t_as0 d k <> 0) as A3 by lra. assert (1 + u * w_nu (WS p k) <> 0) as P1 by nra. assert (1 - u * w_nu (WS p k) <> 0) as P2 by lra. assert (u <> 0) as U0 by lra.
  destruct d_phases as (F1 & F2 & F3 & F4). destruct Dep as (Sm & In & Bt & _). destruct (In k Hk) as (I1 & I2 & I3 & I4 & I5). pose proof (Bt k ltac:(lia)) as I6. destruct DW as (W1 & W2 & W3 & W4 & W5 & W6). destruct Gr as (G1 & G2).
  assert (derivable_pt_lim (fun s => t_F0 (D s)) p 0) as I7 by (apply (BrdfTheorems.dl_same (fun _ => t_F0 d)); [intros s; symmetry; apply same_path|apply derivable_pt_lim_const]).
  assert (derivable_pt_lim (fun s => aa (D s)) p 0) as I8 by (apply (BrdfTheorems.dl_same (fun _ => aa d)); [intros s; symmetry; apply same_path|apply derivable_pt_lim_const]).
  cbn [eff wl_nu wl_Fm wl_Fp wl_Xp wl_Xm wl_L] in W1, W2, W3, W4, W5, W6. destruct Mk as (Mk1 & _). specialize (Mk1 k Hk). assert (4 * PI <> 0) as FP by (pose proof PI_neq0; lra).
  change ((1 + (if (t_four d =? 0)%nat then 1 else 0)) / 4) with (aa d). rewrite Rmult_1_r.
  destruct (v_layer fl k) eqn:L.
  - specialize (Thick eq_refl). rewrite !over_ok by assumption. cbn [bind]. rewrite !over_ok by assumption. cbn [bind]. rewrite !over_ok by assumption. cbn [bind]. rewrite (Mk1 eq_refl) in *. unfold when in *.
    replace (t_ltau d k * l_ltau dl k / t_ltau d k) with (l_ltau dl k) by (field; exact Thick). replace (0 * l_ltau dl k / t_ltau d k) with 0 by (field; exact Thick).
    rewrite ?Ropp_0, ?Rmult_0_r, ?Rmult_0_l, ?exp_0. eexists. split; [f_equal; f_equal|].
    + unfold leaves_up, beam_up, one_up, two_up. destruct once; unfold Rdiv; ring.
    + unfold leaves_up, bent, overlooked_up, beam_up, one_up, two_up. rewrite L. cbn [negb andb]. destruct once; (eapply dl_eq; [ddq; first [assumption|apply PI_neq0|pose proof PI_neq0; lra]|cbv beta; unfold Rdiv; ring]).
  - rewrite !over_ok by assumption. cbn [bind]. rewrite ?over_ok by assumption. cbn [bind]. rewrite ?over_ok by assumption. cbn [bind]. unfold when in *.
    rewrite ?Ropp_0, ?Rmult_0_r, ?Rmult_0_l, ?exp_0. eexists. split; [f_equal; f_equal|].
    + unfold leaves_up, beam_up, one_up, two_up. destruct once; unfold Rdiv; ring.
    + unfold leaves_up, bent, overlooked_up, beam_up, one_up, two_up. rewrite L. cbn [negb andb]. destruct (v_beam fl k) eqn:B; [|destruct (Un eq_refl) as (Z1 & Z2); rewrite ?Z1 in *; rewrite ?Z2 in *];
        (destruct once; (eapply dl_eq; [ddq; first [assumption|apply PI_neq0|pose proof PI_neq0; lra]|cbv beta; unfold Rdiv; ring])).
Qed.
Lemma call_down_l : forall C c' e, derivable_pt_lim C p (c' + e) -> exists l, layer_call_l d dl fl n_coef true m umu once j true (WS p) wl (VS p) y k (C p) c' = Answer (leaves_down d once u k (WS p k) (VS p) (C p), l) /\
  derivable_pt_lim (fun s => leaves_down (D s) once u k (WS s k) (VS s) (C s)) p (l + (e * exp (- t_ltau d k / u) + when (bent fl k) (overlooked_down d dl u (beam_down d true once u k (WS p k) (t_F0 d)) k))).
Proof.
  intros C c' e DC. unfold layer_call_l. destruct (Nat.ltb_spec m k); [lia|]. rewrite view_phases_ok by assumption. cbn [bind]. rewrite view_phases_l_ok. cbn [bind]. cbv zeta.
  unfold sfi_layer_l. rewrite over_ok by lra. cbn [bind]. assert (1 + u * t_as0 d k <> 0) as A2 by lra. assert (1 - u * t_as0 d k <> 0) as A3 by lra. assert (1 + u * w_nu (WS p k) <> 0) as P1 by nra. assert (1 - u * w_nu (WS p k) <> 0) as P2 by lra. assert (u <> 0) as U0 by lra.
  destruct d_phases as (F1 & F2 & F3 & F4). destruct Dep as (Sm & In & Bt & _). destruct (In k Hk) as (I1 & I2 & I3 & I4 & I5). pose proof (Bt k ltac:(lia)) as I6. destruct DW as (W1 & W2 & W3 & W4 & W5 & W6). destruct Gr as (G1 & G2).
  assert (derivable_pt_lim (fun s => t_F0 (D s)) p 0) as I7 by (apply (BrdfTheorems.dl_same (fun _ => t_F0 d)); [intros s; symmetry; apply same_path|apply derivable_pt_lim_const]).
  assert (derivable_pt_lim (fun s => aa (D s)) p 0) as I8 by (apply (BrdfTheorems.dl_same (fun _ => aa d)); [intros s; symmetry; apply same_path|apply derivable_pt_lim_const]).
  cbn [eff wl_nu wl_Fm wl_Fp wl_Xp wl_Xm wl_L] in W1, W2, W3, W4, W5, W6. destruct Mk as (Mk1 & _). specialize (Mk1 k Hk). assert (4 * PI <> 0) as FP by (pose proof PI_neq0; lra).
  change ((1 + (if (t_four d =? 0)%nat then 1 else 0)) / 4) with (aa d). rewrite Rmult_1_r.
  replace (- t_ltau d k * t_as0 d k) with (- t_as0 d k * t_ltau d k) by ring.
  destruct (v_layer fl k) eqn:L.
  - specialize (Thick eq_refl). rewrite !over_ok by assumption. cbn [bind]. rewrite !over_ok by assumption. cbn [bind]. rewrite !over_ok by assumption. cbn [bind]. rewrite (Mk1 eq_refl) in *. unfold when in *.
    replace (t_ltau d k * l_ltau dl k / t_ltau d k) with (l_ltau dl k) by (field; exact Thick). replace (0 * l_ltau dl k / t_ltau d k) with 0 by (field; exact Thick).
    rewrite ?Ropp_0, ?Rmult_0_r, ?Rmult_0_l, ?exp_0. eexists. split; [f_equal; f_equal|].
    + unfold leaves_down, beam_down, one_down, two_down. destruct once; unfold Rdiv; ring.
    + unfold leaves_down, bent, overlooked_down, beam_down, one_down, two_down. rewrite L. cbn [negb andb]. destruct once; (eapply dl_eq; [ddq; first [assumption|apply PI_neq0|pose proof PI_neq0; lra]|cbv beta; unfold Rdiv; ring]).
  - rewrite !over_ok by assumption. cbn [bind]. rewrite ?over_ok by assumption. cbn [bind]. rewrite ?over_ok by assumption. cbn [bind]. unfold when in *.
    rewrite ?Ropp_0, ?Rmult_0_r, ?Rmult_0_l, ?exp_0. eexists. split; [f_equal; f_equal|].
    + unfold leaves_down, beam_down, one_down, two_down. destruct once; unfold Rdiv; ring.
    + unfold leaves_down, bent, overlooked_down, beam_down, one_down, two_down. rewrite L. cbn [negb andb]. destruct (v_beam fl k) eqn:B; [|destruct (Un eq_refl) as (Z1 & Z2); rewrite ?Z1 in *; rewrite ?Z2 in *];
        (destruct once; (eapply dl_eq; [ddq; first [assumption|apply PI_neq0|pose proof PI_neq0; lra]|cbv beta; unfold Rdiv; ring])).
Qed.
End Layer.
