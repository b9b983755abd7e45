(** The loop of rtm_doub_rts. *)
From Coq Require Import Reals Bool Arith Lia Lra List ZArith.
From Verif Require Import Base DerivsModel DeltaMSpec DeltaMProofs BeamProofs AddingModel AddingSpec AddingMat AddingJoin AddingDeriv AddingLin AddingCalls
  DoublingModel DoublingSpec DoublingProofs.
Open Scope R_scope.

Section Values.
Variable n : nat.
Variable solve : mat -> mat -> mat.
Hypothesis Solve : solver n solve.
Variables solar thermal : bool.
(** k doublings; [lin]: by layer_double_l *)
Definition one (lin init : bool) (t l : R) (x : sheet) : sheet :=
  if lin then double_v n solve solar thermal init t l x else double n solve solar thermal init t l x.
Fixpoint steps (lin : bool) (t l : nat -> R) (k : nat) (x : sheet) : sheet :=
  match k with O => x | S k => one lin (Nat.eqb k 0) (t k) (l k) (steps lin t l k x) end.
(** The constant source *)
Definition eff (init : bool) (x : sheet) : layer := if init then warm_ x else even x.
Lemma eff_start : forall init x, even (start_L true init x) = eff init x /\ warm_ (start_L true init x) = warm_ x.
Proof. intros [] []; split; reflexivity. Qed.

Lemma one_sun : forall lin init t l x, solar = true -> regular n (hR x) (hR x) ->
  leq n (sun (one lin init t l x)) (join n solve 1 (sun x) (scaled t (sun x))).
Proof.
  intros lin init t l x E G. destruct (regular_inverse n _ _ G) as (q & P1 & P2). unfold one. rewrite E. destruct lin.
  - exact (sun_double_v n solve Solve (hR x) (hT x) q P1 P2 x eq_refl eq_refl thermal init t l).
  - exact (sun_double n solve Solve (hR x) (hT x) q P1 P2 x eq_refl eq_refl thermal init t l).
Qed.
Lemma one_warm : forall lin init t l x, thermal = true -> regular n (hR x) (hR x) ->
  leq n (warm_ (one lin init t l x)) (join n solve 1 (warm_ x) (comb l (warm_ x) (eff init x))) /\
  leq n (even (one lin init t l x)) (join n solve 1 (eff init x) (eff init x)).
Proof.
  intros lin init t l x E G. destruct (regular_inverse n _ _ G) as (q & P1 & P2). unfold one. rewrite E. destruct (eff_start init x) as [<- E2]. rewrite <- E2. destruct lin.
  - exact (warm_double_v n solve Solve (hR x) (hT x) q P1 P2 x eq_refl eq_refl solar init t l).
  - exact (warm_double n solve Solve (hR x) (hT x) q P1 P2 x eq_refl eq_refl solar init t l).
Qed.
Lemma eff_R : forall init x, Rm (eff init x) = hR x /\ Rp (eff init x) = hR x.
Proof. intros [] x; split; reflexivity. Qed.

Lemma pow2_pred : forall k, (2 ^ S k - 1 = (2 ^ k - 1) + S (2 ^ k - 1))%nat.
Proof. intros k. cbn [Nat.pow]. pose proof (Nat.pow_nonzero 2 k). lia. Qed.
Lemma pow2_S : forall k, (S (2 ^ k - 1) = 2 ^ k)%nat.
Proof. intros k. pose proof (Nat.pow_nonzero 2 k). lia. Qed.
Lemma INR_pow2 : forall k, INR (2 ^ k) = 2 ^ k.
Proof. intros k. rewrite pow_INR. reflexivity. Qed.

(** 2^k layers, each lit by the beam that the one above let through *)
Lemma steps_sun : forall lin t0 t l x k, solar = true -> (forall i, (i < k)%nat -> t i = t0 ^ (2 ^ i)) ->
  (forall i, (i < k)%nat -> regular n (hR (steps lin t l i x)) (hR (steps lin t l i x))) ->
  stands_for n (2 ^ k - 1) (fun j => scaled (t0 ^ j) (sun x)) (sun (steps lin t l k x)).
Proof.
  intros lin t0 t l x k E. induction k as [|k IH]; intros Ht G.
  - intros d u a b. cbn [steps Nat.pow Nat.sub through pow]. rewrite scaled_one. reflexivity.
  - specialize (IH (fun i H => Ht i (Nat.lt_lt_succ_r _ _ H)) (fun i H => G i (Nat.lt_lt_succ_r _ _ H))). specialize (G k (Nat.lt_succ_diag_r k)). specialize (Ht k (Nat.lt_succ_diag_r k)).
    rewrite pow2_pred. set (a := sun (steps lin t l k x)) in *.
    eapply stands_leq; [intros; apply leq_refl|apply leq_sym; apply one_sun; [exact E|exact G]|]. fold a.
    eapply stands_app; [exact IH| |apply joins_one, join_sound; [exact Solve|exact G]].
    rewrite pow2_S, Ht. eapply stands_leq; [|apply leq_refl|apply stands_scaled; exact IH].
    intros j _. cbv beta. rewrite pow_add.
    refine (conj _ (conj _ (conj _ (conj _ (conj _ _))))); first [intros i i' _ _; reflexivity|intros i _; cbn; unfold vscale; ring].
Qed.
Lemma steps_warm : forall lin t l0 l x k, thermal = true -> (forall i, (i < k)%nat -> l i = l0 * 2 ^ i) ->
  (forall i, (i < k)%nat -> regular n (hR (steps lin t l i x)) (hR (steps lin t l i x))) ->
  stands_for n (2 ^ k - 1) (fun j => comb (INR j * l0) (warm_ x) (warm_ x)) (warm_ (steps lin t l k x)) /\
  stands_for n (2 ^ k - 1) (fun _ => warm_ x) (eff (Nat.eqb k 0) (steps lin t l k x)) /\
  same_ops n (warm_ (steps lin t l k x)) (eff (Nat.eqb k 0) (steps lin t l k x)).
Proof.
  intros lin t l0 l x k E. induction k as [|k IH]; intros Hl G.
  - split; [|split; [intros d u a b; reflexivity|apply same_refl]].
    apply (stands_leq n (2 ^ 0 - 1) (fun _ => warm_ x) _ (warm_ x) _); [|apply leq_refl|intros d u a b; reflexivity].
    cbn [Nat.pow Nat.sub]. intros j Hj. assert (j = 0)%nat as -> by lia. cbn [INR].
    refine (conj _ (conj _ (conj _ (conj _ (conj _ _))))); first [intros i i' _ _; reflexivity|intros i _; cbn; unfold vadd, vscale; ring].
  - destruct (IH (fun i H => Hl i (Nat.lt_lt_succ_r _ _ H)) (fun i H => G i (Nat.lt_lt_succ_r _ _ H))) as (IH1 & IH2 & IH3).
    specialize (G k (Nat.lt_succ_diag_r k)). specialize (Hl k (Nat.lt_succ_diag_r k)).
    destruct (one_warm lin (Nat.eqb k 0) (t k) (l k) (steps lin t l k x) E G) as [L1 L2].
    rewrite pow2_pred. set (y := steps lin t l k x) in *. set (z := one lin (Nat.eqb k 0) (t k) (l k) y) in *.
    change (steps lin t l (S k) x) with z. cbn [Nat.eqb eff].
    split; [|split].
    + eapply stands_leq; [intros; apply leq_refl|apply leq_sym; exact L1|].
      eapply stands_app; [exact IH1| |apply joins_one, join_sound; [exact Solve|exact G]].
      rewrite pow2_S, Hl. eapply stands_leq; [|apply leq_refl|apply (stands_comb n _ (l0 * 2 ^ k)); [| |exact IH1|exact IH2]].
      * intros j _. cbv beta. rewrite plus_INR, INR_pow2.
        refine (conj _ (conj _ (conj _ (conj _ (conj _ _))))); first [intros i i' _ _; reflexivity|intros i _; cbn; unfold vadd, vscale; ring].
      * intros j. exact (same_refl n (warm_ x)).
      * exact IH3.
    + eapply stands_leq; [intros; apply leq_refl|apply leq_sym; exact L2|].
      eapply stands_app; [exact IH2| |apply joins_one, join_sound; [exact Solve|]].
      * eapply stands_leq; [|apply leq_refl|exact IH2]. intros. apply leq_refl.
      * destruct (eff_R (Nat.eqb k 0) y) as [-> ->]. exact G.
    + exact (same_refl n (warm_ z)).
Qed.
End Values.

(** Derivatives of scaled and combined families *)
Section Families.
Variable n : nat.
Lemma lderiv_scaled : forall F t p x t_l, derivable_pt_lim t p t_l -> lderiv n F p x -> lderiv n (fun s => scaled (t s) (F s)) p (dscaled (t p) t_l (F p) x).
Proof.
  intros F t p x t_l Dt (A1 & A2 & A3 & A4 & A5 & A6). refine (conj A1 (conj A2 (conj _ (conj A4 (conj A5 _)))));
    cbn [dscaled scaled Sm Sp]; intros i Hi; unfold vadd, vscale; apply dl_mult; auto.
Qed.
Lemma lderiv_comb : forall F G t p x y t_l, derivable_pt_lim t p t_l -> lderiv n F p x -> lderiv n G p y ->
  lderiv n (fun s => comb (t s) (F s) (G s)) p (dcomb (t p) t_l (G p) x y).
Proof.
  intros F G t p x y t_l Dt (A1 & A2 & A3 & A4 & A5 & A6) (B1 & B2 & B3 & B4 & B5 & B6). refine (conj A1 (conj A2 (conj _ (conj A4 (conj A5 _)))));
    cbn [dcomb comb Sm Sp]; intros i Hi; unfold vadd, vscale; apply dl_plus; auto; apply dl_mult; auto.
Qed.
End Families.

Section Derivs.
Variable n : nat.
Variable solve : mat -> mat -> mat.
Hypothesis Solve : solver n solve.
Variables solar thermal : bool.
Notation steps := (steps n solve solar thermal).
Variables dl db dt : bool.
Variables (X0 : R -> sheet) (t l : nat -> R -> R) (t_l l_l : nat -> R) (p : R) (y0 : sheet).
Definition X (k : nat) (s : R) : sheet := steps true (fun i => t i s) (fun i => l i s) k (X0 s).
Fixpoint Y (k : nat) : sheet :=
  match k with
  | O => y0
  | S k => double_d n solve solar thermal (Nat.eqb k 0) dl db dt (t k p) (t_l k) (l k p) (l_l k) (X k p) (Y k)
  end.
Lemma X_S : forall k s, X (S k) s = one n solve solar thermal true (Nat.eqb k 0) (t k s) (l k s) (X k s).
Proof. reflexivity. Qed.
Definition live (k : nat) : Prop := around p (fun s => forall i, (i < k)%nat -> regular n (hR (X i s)) (hR (X i s))).

Lemma live_S : forall k, live k -> around p (fun s => regular n (hR (X k s)) (hR (X k s))) -> live (S k).
Proof.
  intros k A B. refine (around_imp _ _ _ _ (around_and _ _ _ A B)). intros s [H K] i Hi.
  destruct (Nat.eq_dec i k) as [->|Ne]; [exact K|]. apply H. lia.
Qed.
Lemma sun_deriv : solar = true -> (dl = true -> db = true) -> lderiv n (fun s => sun (X0 s)) p (flagged dl db (sun y0)) ->
  forall k, (forall i, (i < k)%nat -> derivable_pt_lim (t i) p (or_on db (t_l i))) ->
  (forall i, (i < k)%nat -> regular n (hR (X i p)) (hR (X i p))) ->
  live k /\ lderiv n (fun s => sun (X k s)) p (flagged dl db (sun (Y k))).
Proof.
  intros E C D0 k. induction k as [|k IH]; intros Dt G.
  - split; [|exact D0]. apply around_true. intros s i Hi. lia.
  - destruct (IH (fun i H => Dt i (Nat.lt_lt_succ_r _ _ H)) (fun i H => G i (Nat.lt_lt_succ_r _ _ H))) as [IH1 IH2].
    specialize (G k (Nat.lt_succ_diag_r k)). specialize (Dt k (Nat.lt_succ_diag_r k)).
    assert (around p (fun s => regular n (hR (X k s)) (hR (X k s)))) as Rg.
    { destruct IH2 as (D1 & _). cbn [sun sym Rm] in D1. exact (regular_around n _ _ p _ _ D1 D1 G). }
    split; [apply live_S; assumption|].
    apply (lderiv_around n (fun s => join n solve 1 (sun (X k s)) (scaled (t k s) (sun (X k s))))).
    { refine (around_imp _ _ _ _ Rg). intros s Gs. apply leq_sym. rewrite X_S. apply one_sun; assumption. }
    eapply lderiv_ext; [|apply (join_deriv' n solve Solve (fun s => sun (X k s)) (fun s => scaled (t k s) (sun (X k s)))); [exact G|exact IH2|apply lderiv_scaled; [exact Dt|exact IH2]]].
    apply leq_sym. destruct (regular_inverse n _ _ G) as (q & P1 & P2). cbn [Y]. rewrite E.
    apply (sun_double_d n solve Solve (hR (X k p)) (hT (X k p)) q P1 P2 (X k p) eq_refl eq_refl). exact C.
Qed.
Lemma eff_flagged : forall init y, (dl = true -> dt = true) ->
  flagged dl dt (even (start_L dt init y)) = flagged dl dt (eff init y) /\ flagged dl dt (warm_ (start_L dt init y)) = flagged dl dt (warm_ y).
Proof. intros init y C. destruct dl, dt, init, y; try (discriminate (C eq_refl)); split; reflexivity. Qed.
Lemma warm_deriv : thermal = true -> (dl = true -> dt = true) -> lderiv n (fun s => warm_ (X0 s)) p (flagged dl dt (warm_ y0)) ->
  forall k, (forall i, (i < k)%nat -> derivable_pt_lim (l i) p (or_on dt (l_l i))) ->
  (forall i, (i < k)%nat -> regular n (hR (X i p)) (hR (X i p))) ->
  live k /\ lderiv n (fun s => warm_ (X k s)) p (flagged dl dt (warm_ (Y k))) /\
  lderiv n (fun s => eff (Nat.eqb k 0) (X k s)) p (flagged dl dt (eff (Nat.eqb k 0) (Y k))).
Proof.
  intros E C D0 k. induction k as [|k IH]; intros Dt G.
  - split; [|split; exact D0]. apply around_true. intros s i Hi. lia.
  - destruct (IH (fun i H => Dt i (Nat.lt_lt_succ_r _ _ H)) (fun i H => G i (Nat.lt_lt_succ_r _ _ H))) as (IH1 & IH2 & IH3).
    specialize (G k (Nat.lt_succ_diag_r k)). specialize (Dt k (Nat.lt_succ_diag_r k)).
    assert (around p (fun s => regular n (hR (X k s)) (hR (X k s)))) as Rg.
    { destruct IH2 as (D1 & _). cbn [warm_ sym Rm] in D1. exact (regular_around n _ _ p _ _ D1 D1 G). }
    assert (regular n (Rm (eff (Nat.eqb k 0) (X k p))) (Rp (eff (Nat.eqb k 0) (X k p)))) as Ge by (destruct (eff_R (Nat.eqb k 0) (X k p)) as [-> ->]; exact G).
    destruct (regular_inverse n _ _ G) as (q & P1 & P2).
    destruct (warm_double_d n solve Solve (hR (X k p)) (hT (X k p)) q P1 P2 (X k p) eq_refl eq_refl (Y k) solar (Nat.eqb k 0) dl db dt (t k p) (t_l k) (l k p) (l_l k) C) as [W1 W2].
    destruct (eff_start (Nat.eqb k 0) (X k p)) as [F1 F2]. destruct (eff_flagged (Nat.eqb k 0) (Y k) C) as [F3 F4].
    rewrite F1, F2, F3, F4 in W1. rewrite F1, F3 in W2.
    split; [apply live_S; assumption|]. cbn [Nat.eqb eff Y]. rewrite E. split.
    + apply (lderiv_around n (fun s => join n solve 1 (warm_ (X k s)) (comb (l k s) (warm_ (X k s)) (eff (Nat.eqb k 0) (X k s))))).
      { refine (around_imp _ _ _ _ Rg). intros s Gs. apply leq_sym. rewrite X_S. apply one_warm; assumption. }
      eapply lderiv_ext; [|apply (join_deriv' n solve Solve (fun s => warm_ (X k s)) (fun s => comb (l k s) (warm_ (X k s)) (eff (Nat.eqb k 0) (X k s))));
        [exact G|exact IH2|apply lderiv_comb; [exact Dt|exact IH2|exact IH3]]].
      apply leq_sym. exact W1.
    + apply (lderiv_around n (fun s => join n solve 1 (eff (Nat.eqb k 0) (X k s)) (eff (Nat.eqb k 0) (X k s)))).
      { refine (around_imp _ _ _ _ Rg). intros s Gs. apply leq_sym. rewrite X_S. apply one_warm; assumption. }
      eapply lderiv_ext; [|apply (join_deriv' n solve Solve (fun s => eff (Nat.eqb k 0) (X k s)) (fun s => eff (Nat.eqb k 0) (X k s))); [exact Ge|exact IH3|exact IH3]].
      apply leq_sym. exact W2.
Qed.
End Derivs.
