(** The loops of the integration of the source function: every output is the light at its level or depth. *)
From Coq Require Import Reals Bool Arith List ZArith Lia Lra.
From Verif Require Import Base DeltaMSpec DeltaMProofs AddingModel AddingSpec EigModel EigSpec AtmSpec TwoSpec TwoModel TwoProofs TwoLight ViewSpec ViewModel ViewProofs.
Open Scope R_scope.

Section Sweep.
Variable d : deck.
Variable n_coef : nat.
Variables (solar : bool) (m : nat).
Variable g : ground.
Variables (n : nat) (umu ru ru0 : vec).
Variable once : bool.
Variable j : nat.
Variable ws : nat -> wave.
Variable b : vec.
Hypothesis T : tame d m solar g.
Hypothesis NC : (1 < n_coef)%nat.
Hypothesis C : clear d m solar n umu.
Hypothesis J : (j < n)%nat.
Hypothesis W : forall k, (k <= m)%nat -> wave_of d solar k (ws k).

Lemma u_ok : 0 < umu j <= 1. Proof. apply (C j J). Qed.
Lemma nu_ok : forall k, (k <= m)%nat -> 0 < w_nu (ws k) /\ umu j * w_nu (ws k) <> 1.
Proof.
  intros k Hk. destruct (W k Hk) as (P & Sq & _). refine (conj P _). intros E. destruct (C j J) as (_ & R). destruct (R k Hk) as (R1 & _). apply R1.
  rewrite (decay_is d k (qx_ok d m solar g T)), <- Sq. replace (umu j * umu j * (w_nu (ws k) * w_nu (ws k))) with (umu j * w_nu (ws k) * (umu j * w_nu (ws k))) by ring. rewrite E. ring.
Qed.
Lemma as_ok : forall k, (k <= m)%nat -> solar = true -> umu j * t_as0 d k <> 1 /\ umu j * t_as0 d k <> -1.
Proof. intros k Hk So. destruct (C j J) as (_ & R). destruct (R k Hk) as (_ & R2). exact (R2 So). Qed.
Lemma at_ok : forall k, (k <= m)%nat -> solar = true -> t_atran d k = exp (- t_as0 d k * t_ltau d k).
Proof. intros k Hk So. apply (beam_ok d m solar g T So k Hk). Qed.

Definition upward (k : nat) : R -> R -> R := up_at d solar once (umu j) k (ws k) b (t_F0 d).
Definition downward (k : nat) : R -> R -> R := down_at d solar once (umu j) k (ws k) b (t_F0 d).
(** The light at the level S m - k, and at the level k *)
Fixpoint up_lev (k : nat) : R := match k with O => from_below d solar m g ru ru0 once j ws b | S k => upward (m - k) (up_lev k) 0 end.
Fixpoint down_lev (k : nat) : R := match k with O => 0 | S k => downward k (down_lev k) (t_ltau d k) end.
Definition Vu (l : nat) : R := up_lev (S m - l).
Lemma Vu_step : forall k, (k <= m)%nat -> Vu k = upward k (Vu (S k)) 0.
Proof using. clear NC J. intros k Hk. unfold Vu. replace (S m - k)%nat with (S (m - k)) by lia. cbn [up_lev]. replace (m - (m - k))%nat with k by lia. replace (S m - S k)%nat with (m - k)%nat by lia. reflexivity. Qed.
Lemma up_call : forall F k c s, (k <= m)%nat -> layer_call d n_coef solar m umu once j F false ws b k (t_ltau d k - s) s s c = Answer (up_at d solar once (umu j) k (ws k) b F c s).
Proof.
  intros F k c s Hk. destruct (nu_ok k Hk) as (N1 & N2). apply call_up; try assumption; try apply u_ok; [apply (qx_ok d m solar g T)|apply (mu0_ok d m solar g T)|apply as_ok, Hk|apply at_ok, Hk].
Qed.
Lemma down_call : forall F k c s, (k <= m)%nat -> layer_call d n_coef solar m umu once j F true ws b k s (t_ltau d k - s) s c = Answer (down_at d solar once (umu j) k (ws k) b F c s).
Proof.
  intros F k c s Hk. destruct (nu_ok k Hk) as (N1 & N2). apply call_down; try assumption; try apply u_ok; [apply (qx_ok d m solar g T)|apply (mu0_ok d m solar g T)|apply as_ok, Hk].
Qed.
Lemma up_whole : forall k c, (k <= m)%nat -> layer_call d n_coef solar m umu once j (t_F0 d) false ws b k (t_ltau d k) 0 0 c = Answer (upward k c 0).
Proof. intros k c Hk. unfold upward. rewrite <- (up_call (t_F0 d) k c 0 Hk). rewrite Rminus_0_r. reflexivity. Qed.
Lemma down_whole : forall k c, (k <= m)%nat -> layer_call d n_coef solar m umu once j (t_F0 d) true ws b k (t_ltau d k) 0 (t_ltau d k) c = Answer (downward k c (t_ltau d k)).
Proof. intros k c Hk. unfold downward. rewrite <- (down_call (t_F0 d) k c (t_ltau d k) Hk). replace (t_ltau d k - t_ltau d k) with 0 by ring. reflexivity. Qed.

Variable N : nat.
Lemma read_ok : forall (A : Type) (f : nat -> A) q, (0 <= q)%Z -> (q < Z.of_nat N)%Z -> read N f q = Answer (f (Z.to_nat q)).
Proof. intros A f q H1 H2. unfold read. destruct (Z.leb_spec 0 q); [|lia]. destruct (Z.ltb_spec q (Z.of_nat N)); [reflexivity|lia]. Qed.
Lemma write_here : forall q x f, write (Z.of_nat q) x f q = x. Proof. intros. unfold write. rewrite Z.eqb_refl. reflexivity. Qed.
Lemma write_there : forall p q x f, Z.of_nat q <> p -> write p x f q = f q. Proof. intros p q x f H. unfold write. destruct (Z.eqb_spec (Z.of_nat q) p); [contradiction|reflexivity]. Qed.

(** * Output at levels *)
Section Levels.
Variable lev : nat -> nat.
Hypothesis In : increasing N m lev.
Lemma mono : forall p q, (p <= q)%nat -> (q < N)%nat -> (lev p <= lev q)%nat.
Proof. intros p q H Hq. destruct In as (_ & I & _). destruct (Nat.eq_dec p q) as [->|NE]; [lia|]. specialize (I p q ltac:(lia) Hq). lia. Qed.
Definition up_inv (l : nat) (s : sweep) : Prop := (-1 <= s_out s < Z.of_nat N)%Z /\ s_I0 s = Vu l /\
  forall q, (q < N)%nat -> ((Z.of_nat q <= s_out s)%Z -> (lev q < l)%nat) /\ ((s_out s < Z.of_nat q)%Z -> (l <= lev q)%nat /\ s_Iu s q = Some (Vu (lev q))).
Lemma up_pass : forall l s, (lev 0 < l)%nat -> (l <= S m)%nat -> up_inv l s ->
  exists s', pass d n_coef solar m n umu once N lev None j false ws b (l - 1) s = Answer s' /\ up_inv (l - 1) s'.
Proof.
  intros l s L0 Lm ((O1 & O2) & I0 & Q). unfold pass. cbn [bind]. rewrite up_whole by lia. cbn [bind]. rewrite I0. cbn [s_out s_I0 s_Iu].
  assert (upward (l - 1) (Vu l) 0 = Vu (l - 1)) as -> by (rewrite (Vu_step (l - 1)) by lia; do 2 f_equal; lia).
  destruct In as (N0 & I & Le). assert (0 <= s_out s)%Z as P by (destruct (Z_le_gt_dec 0 (s_out s)); [assumption|]; destruct (Q 0%nat N0) as (_ & Q2); specialize (Q2 ltac:(lia)); lia).
  rewrite read_ok by lia. cbn [bind]. set (o := Z.to_nat (s_out s)). assert (s_out s = Z.of_nat o) as Eo by (unfold o; lia). assert (o < N)%nat as Ho by lia.
  destruct (Q o Ho) as (Qo & _). specialize (Qo ltac:(lia)).
  destruct (Nat.eqb_spec (l - 1) (lev o)) as [E|NE]; eexists; (split; [reflexivity|]); unfold up_inv, give, inc; cbn [s_out s_I0 s_Iu].
  - refine (conj _ (conj eq_refl _)); [lia|]. intros q Hq. split; [intros B; specialize (I q o ltac:(lia) Ho); lia|]. intros B. rewrite Eo in *.
    destruct (Nat.eq_dec q o) as [->|NE]; [rewrite write_here; split; [lia|]; rewrite <- E; reflexivity|]. rewrite write_there by lia. destruct (Q q Hq) as (_ & Q2). destruct (Q2 ltac:(lia)) as (Q3 & Q4). split; [lia|exact Q4].
  - refine (conj _ (conj eq_refl _)); [lia|]. intros q Hq. destruct (Q q Hq) as (Q1 & Q2). split; [|intros B; destruct (Q2 B); split; [lia|assumption]]. intros B. pose proof (mono q o ltac:(lia) Ho). lia.
Qed.
Lemma up_passes : forall c l s, (l = lev 0 + c)%nat -> (l <= S m)%nat -> up_inv l s ->
  exists s', passes d n_coef solar m n umu once N lev None j c false ws b (l - 1) s = Answer s' /\ up_inv (lev 0) s'.
Proof.
  induction c as [|c IH]; intros l s E Lm Iv; cbn [passes]; [eexists; split; [reflexivity|]; replace (lev 0%nat) with l by lia; exact Iv|].
  destruct (up_pass l s ltac:(lia) Lm Iv) as (s1 & -> & Iv1). cbn [bind]. exact (IH (l - 1)%nat s1 ltac:(lia) ltac:(lia) Iv1).
Qed.
Lemma sfi_up : exists f, sfi d n_coef solar m n umu once N lev None j false ws b (from_below d solar m g ru ru0 once j ws b) = Answer f /\ forall q, (q < N)%nat -> f q = Some (Vu (lev q)).
Proof.
  pose proof In as In'. destruct In' as (N0 & I & Le). unfold sfi. rewrite read_ok by lia. change (Z.to_nat 0) with 0%nat. cbn [bind]. pose proof (Le 0%nat N0). destruct (Nat.ltb_spec (S m) (lev 0%nat)); [lia|]. cbn [bind].
  assert (exists s, begin m N lev None false {| s_out := Z.of_nat N - 1; s_I0 := from_below d solar m g ru ru0 once j ws b; s_Iu := fun _ => None |} = Answer s /\ up_inv (S m) s) as (s & -> & Iv).
  { assert (Vu (S m) = from_below d solar m g ru ru0 once j ws b) as V by (unfold Vu; rewrite Nat.sub_diag; reflexivity).
    unfold begin. cbn [s_out]. rewrite read_ok by lia. cbn [bind]. replace (Z.to_nat (Z.of_nat N - 1)) with (N - 1)%nat by lia.
    destruct (Nat.eqb_spec (S m) (lev (N - 1)%nat)) as [E|NE]; eexists; (split; [reflexivity|]); unfold up_inv, give, inc; cbn [s_out s_I0 s_Iu]; (refine (conj _ (conj (eq_sym V) _)); [lia|]).
    - intros q Hq. split; [intros B; specialize (I q (N - 1)%nat ltac:(lia) ltac:(lia)); lia|]. intros B. assert (q = N - 1)%nat as -> by lia. split; [lia|]. replace (Z.of_nat N - 1)%Z with (Z.of_nat (N - 1)) by lia. rewrite write_here, <- E, V. reflexivity.
    - intros q Hq. split; [|lia]. intros _. pose proof (mono q (N - 1) ltac:(lia) ltac:(lia)). specialize (Le (N - 1)%nat ltac:(lia)). lia. }
  cbn [bind]. destruct (up_passes (S m - lev 0%nat) (S m) s ltac:(lia) ltac:(lia) Iv) as (s' & E & (O & _ & Q)). replace (S m - 1)%nat with m in E by lia. rewrite E. cbn [bind]. eexists. split; [reflexivity|].
  intros q Hq. destruct (Q q Hq) as (Q1 & Q2). destruct (Z_le_gt_dec (Z.of_nat q) (s_out s')) as [B|B]; [|apply Q2; lia]. specialize (Q1 B). pose proof (mono 0 q ltac:(lia) Hq). lia.
Qed.
Definition down_inv (l : nat) (s : sweep) : Prop := (0 <= s_out s <= Z.of_nat N)%Z /\ s_I0 s = down_lev l /\
  forall q, (q < N)%nat -> ((s_out s <= Z.of_nat q)%Z -> (l < lev q)%nat) /\ ((Z.of_nat q < s_out s)%Z -> (lev q <= l)%nat /\ s_Iu s q = Some (down_lev (lev q))).
Lemma down_pass : forall l s, (l < lev (N - 1))%nat -> (l <= m)%nat -> down_inv l s ->
  exists s', pass d n_coef solar m n umu once N lev None j true ws b l s = Answer s' /\ down_inv (S l) s'.
Proof.
  intros l s L0 Lm ((O1 & O2) & I0 & Q). unfold pass. cbn [bind]. rewrite down_whole by lia. cbn [bind]. rewrite I0. cbn [s_out s_I0 s_Iu].
  change (downward l (down_lev l) (t_ltau d l)) with (down_lev (S l)).
  destruct In as (N0 & I & Le). assert (s_out s < Z.of_nat N)%Z as P by (destruct (Z_lt_ge_dec (s_out s) (Z.of_nat N)); [assumption|]; destruct (Q (N - 1)%nat ltac:(lia)) as (_ & Q2); specialize (Q2 ltac:(lia)); lia).
  rewrite read_ok by lia. cbn [bind]. set (o := Z.to_nat (s_out s)). assert (s_out s = Z.of_nat o) as Eo by (unfold o; lia). assert (o < N)%nat as Ho by lia.
  destruct (Q o Ho) as (Qo & _). specialize (Qo ltac:(lia)).
  destruct (Nat.eqb_spec (S l) (lev o)) as [E|NE]; eexists; (split; [reflexivity|]); unfold down_inv, give, inc; cbn [s_out s_I0 s_Iu].
  - refine (conj _ (conj eq_refl _)); [lia|]. intros q Hq. split; [intros B; specialize (I o q ltac:(lia) Hq); lia|]. intros B. rewrite Eo in *.
    destruct (Nat.eq_dec q o) as [->|NE]; [rewrite write_here; split; [lia|]; rewrite <- E; reflexivity|]. rewrite write_there by lia. destruct (Q q Hq) as (_ & Q2). destruct (Q2 ltac:(lia)) as (Q3 & Q4). split; [lia|exact Q4].
  - refine (conj _ (conj eq_refl _)); [lia|]. intros q Hq. destruct (Q q Hq) as (Q1 & Q2). split; [|intros B; destruct (Q2 B); split; [lia|assumption]]. intros B. pose proof (mono o q ltac:(lia) Hq). lia.
Qed.
Lemma down_passes : forall c l s, (lev (N - 1) = l + c)%nat -> (l + c <= S m)%nat -> down_inv l s ->
  exists s', passes d n_coef solar m n umu once N lev None j c true ws b l s = Answer s' /\ down_inv (lev (N - 1)%nat) s'.
Proof.
  induction c as [|c IH]; intros l s E Lm Iv; cbn [passes]; [eexists; split; [reflexivity|]; rewrite E, Nat.add_0_r; exact Iv|].
  destruct (down_pass l s ltac:(lia) ltac:(lia) Iv) as (s1 & -> & Iv1). cbn [bind]. exact (IH (S l) s1 ltac:(lia) ltac:(lia) Iv1).
Qed.
Lemma sfi_down : exists f, sfi d n_coef solar m n umu once N lev None j true ws b 0 = Answer f /\ forall q, (q < N)%nat -> f q = Some (down_lev (lev q)).
Proof.
  pose proof In as In'. destruct In' as (N0 & I & Le). unfold sfi. rewrite read_ok by lia. replace (Z.to_nat (Z.of_nat N - 1)) with (N - 1)%nat by lia. cbn [bind].
  assert (exists s, begin m N lev None true {| s_out := 0; s_I0 := 0; s_Iu := fun _ => None |} = Answer s /\ down_inv 0 s) as (s & -> & Iv).
  { unfold begin. cbn [s_out]. rewrite read_ok by lia. cbn [bind]. change (Z.to_nat 0) with 0%nat.
    destruct (Nat.eqb_spec 0 (lev 0%nat)) as [E|NE]; eexists; (split; [reflexivity|]); unfold down_inv, give, inc; cbn [s_out s_I0 s_Iu]; (refine (conj _ (conj eq_refl _)); [lia|]).
    - intros q Hq. split; [intros B; specialize (I 0%nat q ltac:(lia) ltac:(lia)); lia|]. intros B. assert (q = 0)%nat as -> by lia. split; [lia|]. rewrite <- E. reflexivity.
    - intros q Hq. split; [|lia]. intros _. pose proof (mono 0 q ltac:(lia) ltac:(lia)). lia. }
  cbn [bind]. destruct (down_passes (lev (N - 1)%nat) 0 s ltac:(lia) ltac:(specialize (Le (N - 1)%nat ltac:(lia)); lia) Iv) as (s' & E & (O & _ & Q)). rewrite E. cbn [bind]. eexists. split; [reflexivity|].
  intros q Hq. destruct (Q q Hq) as (Q1 & Q2). destruct (Z_le_gt_dec (s_out s') (Z.of_nat q)) as [B|B]; [|apply Q2; lia]. specialize (Q1 B). pose proof (mono q (N - 1) ltac:(lia) ltac:(lia)). lia.
Qed.
End Levels.

(** * Output at depths, if the flux happens to be the number of directions *)
Section Depths.
Variable lay : nat -> nat.
Variable tau : nat -> R.
Hypothesis De : descending N m d lay tau.
Hypothesis F : INR (S j) <= t_F0 d < INR n + 1.
Lemma swapped_ok : forall down k a1 b1 p c, swapped_call d n_coef solar m n umu once j down ws b k a1 b1 p c = bind (layer_call d n_coef solar m umu once j (INR n) down ws b k a1 b1 p c) (fun x => Answer (Some x)).
Proof.
  intros down k a1 b1 p c. unfold swapped_call. pose proof (pos_INR (S j)). destruct (Rle_dec (t_F0 d) (-1)); [lra|]. destruct (Rlt_dec (t_F0 d) 0); [lra|]. cbv zeta. destruct (base_Int_part (t_F0 d)) as (B1 & B2). destruct F as (F1 & F2). rewrite INR_IZR_INZ in F1, F2.
  destruct (Z.ltb_spec (Z.of_nat n) (Int_part (t_F0 d))) as [G|G].
  - exfalso. assert (Z.of_nat n + 1 <= Int_part (t_F0 d))%Z as G' by lia. apply IZR_le in G'. rewrite plus_IZR in G'. lra.
  - destruct (Z.ltb_spec (Z.of_nat j) (Int_part (t_F0 d))) as [K|K]; [reflexivity|]. exfalso. assert (Int_part (t_F0 d) + 1 <= Z.of_nat (S j))%Z as K' by lia. apply IZR_le in K'. rewrite plus_IZR in K'. lra.
Qed.
Definition up_val (q : nat) : R := up_at d solar once (umu j) (lay q) (ws (lay q)) b (INR n) (Vu (S (lay q))) (tau q).
Definition down_val (q : nat) : R := down_at d solar once (umu j) (lay q) (ws (lay q)) b (INR n) (down_lev (lay q)) (tau q).
Lemma up_within : forall fuel i s, (i <= m)%nat -> (s_out s < Z.of_nat fuel)%Z -> (-1 <= s_out s < Z.of_nat N)%Z -> s_I0 s = Vu (S i) ->
  (forall q, (q < N)%nat -> ((Z.of_nat q <= s_out s)%Z -> (lay q <= i)%nat) /\ ((s_out s < Z.of_nat q)%Z -> (i <= lay q)%nat /\ s_Iu s q = Some (up_val q))) ->
  exists s', within d n_coef solar m n umu once N lay j fuel false ws b tau i s = Answer s' /\ (-1 <= s_out s' < Z.of_nat N)%Z /\ s_I0 s' = Vu (S i) /\
    forall q, (q < N)%nat -> ((Z.of_nat q <= s_out s')%Z -> (lay q < i)%nat) /\ ((s_out s' < Z.of_nat q)%Z -> (i <= lay q)%nat /\ s_Iu s' q = Some (up_val q)).
Proof.
  destruct De as (N0 & Mo & In). induction fuel as [|fuel IH]; intros i s Hi Hf (O1 & O2) I0 Q; cbn [within].
  - exists s. refine (conj eq_refl (conj (conj O1 O2) (conj I0 _))). intros q Hq. destruct (Q q Hq) as (_ & Q2). split; [lia|exact Q2].
  - destruct (Z.leb_spec 0 (s_out s)) as [P|P]; cbn [andb].
    2: { exists s. refine (conj eq_refl (conj (conj O1 O2) (conj I0 _))). intros q Hq. destruct (Q q Hq) as (_ & Q2). split; [lia|exact Q2]. }
    destruct (Z.ltb_spec (s_out s) (Z.of_nat N)); [|lia]. set (o := Z.to_nat (s_out s)). assert (s_out s = Z.of_nat o) as Eo by (unfold o; lia). assert (o < N)%nat as Ho by lia.
    destruct (Q o Ho) as (Qo & _). specialize (Qo ltac:(lia)). destruct (Nat.eqb_spec i (lay o)) as [E|NE].
    + rewrite swapped_ok, up_call by exact Hi. cbn [bind]. apply IH; cbn [s_out s_I0 s_Iu inc]; try lia; try assumption. intros q Hq. destruct (Q q Hq) as (Q1 & Q2). split; [intros B; apply Q1; lia|]. intros B. rewrite Eo in *.
      destruct (Nat.eq_dec q o) as [->|NE]; [rewrite write_here; split; [lia|]; unfold up_val; rewrite I0, E; reflexivity|]. rewrite write_there by lia. apply Q2. lia.
    + exists s. refine (conj eq_refl (conj (conj O1 O2) (conj I0 _))). intros q Hq. destruct (Q q Hq) as (_ & Q2). split; [|exact Q2]. intros B. pose proof (Mo q o ltac:(lia) Ho). lia.
Qed.
Definition up_inv2 (l : nat) (s : sweep) : Prop := (-1 <= s_out s < Z.of_nat N)%Z /\ s_I0 s = Vu l /\
  forall q, (q < N)%nat -> ((Z.of_nat q <= s_out s)%Z -> (lay q < l)%nat) /\ ((s_out s < Z.of_nat q)%Z -> (l <= lay q)%nat /\ s_Iu s q = Some (up_val q)).
Lemma up_pass2 : forall l s, (lay 0 < l)%nat -> (l <= S m)%nat -> up_inv2 l s ->
  exists s', pass d n_coef solar m n umu once N lay (Some tau) j false ws b (l - 1) s = Answer s' /\ up_inv2 (l - 1) s'.
Proof.
  intros l s L0 Lm ((O1 & O2) & I0 & Q). pose proof De as (N0 & Mo & In). unfold pass.
  assert (0 <= s_out s)%Z as P by (destruct (Z_le_gt_dec 0 (s_out s)); [assumption|]; destruct (Q 0%nat N0) as (_ & Q2); specialize (Q2 ltac:(lia)); lia).
  rewrite read_ok by lia. cbn [bind]. set (o := Z.to_nat (s_out s)). assert (s_out s = Z.of_nat o) as Eo by (unfold o; lia). assert (o < N)%nat as Ho by lia. destruct (Q o Ho) as (Qo & _). specialize (Qo ltac:(lia)).
  assert (exists s', (if (l - 1 =? lay o)%nat then within d n_coef solar m n umu once N lay j N false ws b tau (l - 1) s else Answer s) = Answer s' /\ (-1 <= s_out s' < Z.of_nat N)%Z /\ s_I0 s' = Vu l /\
    forall q, (q < N)%nat -> ((Z.of_nat q <= s_out s')%Z -> (lay q < l - 1)%nat) /\ ((s_out s' < Z.of_nat q)%Z -> (l - 1 <= lay q)%nat /\ s_Iu s' q = Some (up_val q))) as (s' & -> & O' & I' & Q').
  { destruct (Nat.eqb_spec (l - 1) (lay o)) as [E|NE].
    - replace (Vu l) with (Vu (S (l - 1))) in I0 |- * by (f_equal; lia). apply up_within; try lia; try assumption. intros q Hq. destruct (Q q Hq) as (Q1 & Q2). split; [intros B; specialize (Q1 B); lia|]. intros B. destruct (Q2 B). split; [lia|assumption].
    - exists s. refine (conj eq_refl (conj (conj O1 O2) (conj I0 _))). intros q Hq. destruct (Q q Hq) as (Q1 & Q2). split; [|intros B; destruct (Q2 B); split; [lia|assumption]]. intros B. pose proof (Mo q o ltac:(lia) Ho). lia. }
  cbn [bind]. rewrite up_whole by lia. cbn [bind]. eexists. split; [reflexivity|]. unfold up_inv2. cbn [s_out s_I0 s_Iu]. refine (conj O' (conj _ Q')). rewrite I', (Vu_step (l - 1)) by lia. do 2 f_equal. lia.
Qed.
Lemma up_passes2 : forall c l s, (l = lay 0 + c)%nat -> (l <= S m)%nat -> up_inv2 l s ->
  exists s', passes d n_coef solar m n umu once N lay (Some tau) j c false ws b (l - 1) s = Answer s' /\ up_inv2 (lay 0) s'.
Proof.
  induction c as [|c IH]; intros l s E Lm Iv; cbn [passes]; [eexists; split; [reflexivity|]; replace (lay 0%nat) with l by lia; exact Iv|].
  destruct (up_pass2 l s ltac:(lia) Lm Iv) as (s1 & -> & Iv1). cbn [bind]. exact (IH (l - 1)%nat s1 ltac:(lia) ltac:(lia) Iv1).
Qed.
Lemma sfi_up2 : exists f, sfi d n_coef solar m n umu once N lay (Some tau) j false ws b (from_below d solar m g ru ru0 once j ws b) = Answer f /\ forall q, (q < N)%nat -> f q = Some (up_val q).
Proof.
  pose proof De as (N0 & Mo & In). unfold sfi. rewrite read_ok by lia. change (Z.to_nat 0) with 0%nat. cbn [bind]. pose proof (In 0%nat N0) as (L0 & _). destruct (Nat.ltb_spec (S m) (lay 0%nat)); [lia|]. cbn [bind].
  unfold begin. cbn [s_out]. rewrite read_ok by lia. cbn [bind]. replace (Z.to_nat (Z.of_nat N - 1)) with (N - 1)%nat by lia. destruct (In (N - 1)%nat ltac:(lia)) as (LN & _).
  destruct (Nat.eqb_spec (S m) (lay (N - 1)%nat)) as [E|NE]; [lia|]. cbn [bind]. match goal with |- context [passes _ _ _ _ _ _ _ _ _ _ _ _ _ _ _ _ ?x] => set (s := x) end.
  assert (up_inv2 (S m) s) as Iv.
  { unfold up_inv2, s. cbn [s_out s_I0 s_Iu]. refine (conj _ (conj _ _)); [lia|unfold Vu; rewrite Nat.sub_diag; reflexivity|]. intros q Hq. split; [|lia]. intros _. destruct (In q Hq). lia. }
  destruct (up_passes2 (S m - lay 0%nat) (S m) s ltac:(lia) ltac:(lia) Iv) as (s' & E & (O & _ & Q)). replace (S m - 1)%nat with m in E by lia. rewrite E. cbn [bind]. eexists. split; [reflexivity|].
  intros q Hq. destruct (Q q Hq) as (Q1 & Q2). destruct (Z_le_gt_dec (Z.of_nat q) (s_out s')) as [B|B]; [|apply Q2; lia]. specialize (Q1 B). pose proof (Mo 0%nat q ltac:(lia) Hq). lia.
Qed.
Lemma down_within : forall fuel i s, (i <= m)%nat -> (Z.of_nat N - s_out s <= Z.of_nat fuel)%Z -> (0 <= s_out s <= Z.of_nat N)%Z -> s_I0 s = down_lev i ->
  (forall q, (q < N)%nat -> ((s_out s <= Z.of_nat q)%Z -> (i <= lay q)%nat) /\ ((Z.of_nat q < s_out s)%Z -> (lay q <= i)%nat /\ s_Iu s q = Some (down_val q))) ->
  exists s', within d n_coef solar m n umu once N lay j fuel true ws b tau i s = Answer s' /\ (0 <= s_out s' <= Z.of_nat N)%Z /\ s_I0 s' = down_lev i /\
    forall q, (q < N)%nat -> ((s_out s' <= Z.of_nat q)%Z -> (i < lay q)%nat) /\ ((Z.of_nat q < s_out s')%Z -> (lay q <= i)%nat /\ s_Iu s' q = Some (down_val q)).
Proof.
  destruct De as (N0 & Mo & In). induction fuel as [|fuel IH]; intros i s Hi Hf (O1 & O2) I0 Q; cbn [within].
  - exists s. refine (conj eq_refl (conj (conj O1 O2) (conj I0 _))). intros q Hq. destruct (Q q Hq) as (_ & Q2). split; [lia|exact Q2].
  - destruct (Z.leb_spec 0 (s_out s)); [|lia]. cbn [andb]. destruct (Z.ltb_spec (s_out s) (Z.of_nat N)) as [P|P].
    2: { exists s. refine (conj eq_refl (conj (conj O1 O2) (conj I0 _))). intros q Hq. destruct (Q q Hq) as (_ & Q2). split; [lia|exact Q2]. }
    set (o := Z.to_nat (s_out s)). assert (s_out s = Z.of_nat o) as Eo by (unfold o; lia). assert (o < N)%nat as Ho by lia.
    destruct (Q o Ho) as (Qo & _). specialize (Qo ltac:(lia)). destruct (Nat.eqb_spec i (lay o)) as [E|NE].
    + rewrite swapped_ok, down_call by exact Hi. cbn [bind]. apply IH; cbn [s_out s_I0 s_Iu inc]; try lia; try assumption. intros q Hq. destruct (Q q Hq) as (Q1 & Q2). split; [intros B; apply Q1; lia|]. intros B. rewrite Eo in *.
      destruct (Nat.eq_dec q o) as [->|NE]; [rewrite write_here; split; [lia|]; unfold down_val; rewrite I0, E; reflexivity|]. rewrite write_there by lia. apply Q2. lia.
    + exists s. refine (conj eq_refl (conj (conj O1 O2) (conj I0 _))). intros q Hq. destruct (Q q Hq) as (_ & Q2). split; [|exact Q2]. intros B. pose proof (Mo o q ltac:(lia) Hq). lia.
Qed.
(** Not all the outputs are at the top. *)
Hypothesis Not_top : (1 < N)%nat \/ lay 0%nat <> 0%nat \/ tau 0%nat <> 0.
Definition down_inv2 (l : nat) (s : sweep) : Prop := (0 <= s_out s <= Z.of_nat N)%Z /\ s_I0 s = down_lev l /\
  forall q, (q < N)%nat -> ((s_out s <= Z.of_nat q)%Z -> (l <= lay q)%nat) /\ ((Z.of_nat q < s_out s)%Z -> ((lay q < l)%nat \/ (lay q = l /\ (q < N - 1)%nat)) /\ s_Iu s q = Some (down_val q)).
Lemma down_pass2 : forall l s, (l <= lay (N - 1))%nat -> down_inv2 l s ->
  exists s', pass d n_coef solar m n umu once N lay (Some tau) j true ws b l s = Answer s' /\ down_inv2 (S l) s' /\ forall q, (q < N)%nat -> (s_out s' <= Z.of_nat q)%Z -> (l < lay q)%nat.
Proof.
  clear Not_top. intros l s L0 ((O1 & O2) & I0 & Q). pose proof De as (N0 & Mo & In). unfold pass. destruct (In (N - 1)%nat ltac:(lia)) as (LN & _).
  assert (s_out s < Z.of_nat N)%Z as P by (destruct (Z_lt_ge_dec (s_out s) (Z.of_nat N)); [assumption|]; destruct (Q (N - 1)%nat ltac:(lia)) as (_ & Q2); destruct (Q2 ltac:(lia)) as ([?|(_ & ?)] & _); lia).
  rewrite read_ok by lia. cbn [bind]. set (o := Z.to_nat (s_out s)). assert (s_out s = Z.of_nat o) as Eo by (unfold o; lia). assert (o < N)%nat as Ho by lia. destruct (Q o Ho) as (Qo & _). specialize (Qo ltac:(lia)).
  assert (exists s', (if (l =? lay o)%nat then within d n_coef solar m n umu once N lay j N true ws b tau l s else Answer s) = Answer s' /\ (0 <= s_out s' <= Z.of_nat N)%Z /\ s_I0 s' = down_lev l /\
    forall q, (q < N)%nat -> ((s_out s' <= Z.of_nat q)%Z -> (l < lay q)%nat) /\ ((Z.of_nat q < s_out s')%Z -> (lay q <= l)%nat /\ s_Iu s' q = Some (down_val q))) as (s' & -> & O' & I' & Q').
  { destruct (Nat.eqb_spec l (lay o)) as [E|NE].
    - apply down_within; try lia; try assumption. intros q Hq. destruct (Q q Hq) as (Q1 & Q2). split; [intros B; specialize (Q1 B); lia|]. intros B. destruct (Q2 B). split; [lia|assumption].
    - exists s. refine (conj eq_refl (conj (conj O1 O2) (conj I0 _))). intros q Hq. destruct (Q q Hq) as (Q1 & Q2). split; [|intros B; destruct (Q2 B); split; [lia|assumption]]. intros B. pose proof (Mo o q ltac:(lia) Hq). lia. }
  cbn [bind]. rewrite down_whole by lia. cbn [bind]. eexists. split; [reflexivity|]. unfold down_inv2. cbn [s_out s_I0 s_Iu]. split; [refine (conj O' (conj _ _))|].
  - rewrite I'. reflexivity.
  - intros q Hq. destruct (Q' q Hq) as (Q1 & Q2). split; [intros B; specialize (Q1 B); lia|]. intros B. destruct (Q2 B). split; [left; lia|assumption].
  - intros q Hq. apply Q'. exact Hq.
Qed.
Lemma down_passes2 : forall c l s, (lay (N - 1) = l + c)%nat -> down_inv2 l s ->
  exists s', passes d n_coef solar m n umu once N lay (Some tau) j (S c) true ws b l s = Answer s' /\ down_inv2 (S (lay (N - 1)%nat)) s' /\ forall q, (q < N)%nat -> (s_out s' <= Z.of_nat q)%Z -> (lay (N - 1) < lay q)%nat.
Proof.
  clear Not_top. induction c as [|c IH]; intros l s E Iv.
  - cbn [passes]. destruct (down_pass2 l s ltac:(lia) Iv) as (s1 & -> & Iv1 & L1). cbn [bind]. rewrite Nat.add_0_r in E. rewrite E. exists s1. refine (conj eq_refl (conj Iv1 L1)).
  - destruct (down_pass2 l s ltac:(lia) Iv) as (s1 & E1 & Iv1 & _). remember (S c) as c'. cbn [passes]. rewrite E1. cbn [bind]. subst c'. exact (IH (S l) s1 ltac:(lia) Iv1).
Qed.
Lemma sfi_down2 : exists f, sfi d n_coef solar m n umu once N lay (Some tau) j true ws b 0 = Answer f /\ forall q, (q < N)%nat -> f q = Some (down_val q).
Proof.
  pose proof De as (N0 & Mo & In). unfold sfi. rewrite read_ok by lia. replace (Z.to_nat (Z.of_nat N - 1)) with (N - 1)%nat by lia. cbn [bind].
  assert (exists s, begin m N lay (Some tau) true {| s_out := 0; s_I0 := 0; s_Iu := fun _ => None |} = Answer s /\ down_inv2 0 s) as (s & -> & Iv).
  { unfold begin. cbn [s_out]. rewrite !read_ok by lia. cbn [bind]. change (Z.to_nat 0) with 0%nat.
    destruct (Nat.eqb_spec 0 (lay 0%nat)) as [E|NE]; [destruct (Req_EM_T (tau 0%nat) 0) as [E0|NE0]|]; eexists; (split; [reflexivity|]); unfold down_inv2, give, inc; cbn [s_out s_I0 s_Iu]; (refine (conj _ (conj eq_refl _)); [lia|]).
    - intros q Hq. split; [lia|]. intros B. assert (q = 0)%nat as -> by lia. assert (0 < N - 1)%nat as N1' by (destruct Not_top as [X|[X|X]]; [lia|exfalso; apply X; symmetry; exact E|contradiction]). split; [right; split; [lia|exact N1']|].
      change 0%Z with (Z.of_nat 0). rewrite write_here. unfold down_val. rewrite <- E, E0. cbn [down_lev]. f_equal. symmetry. destruct (nu_ok 0 ltac:(lia)) as (N1 & N2). apply down_top; first [assumption|apply u_ok|apply as_ok; lia|apply at_ok; lia].
    - intros q Hq. split; lia.
    - intros q Hq. split; lia. }
  cbn [bind]. destruct (down_passes2 (lay (N - 1)%nat) 0 s ltac:(lia) Iv) as (s' & E & (O & _ & Q) & L). rewrite E. cbn [bind]. eexists. split; [reflexivity|].
  intros q Hq. destruct (Q q Hq) as (_ & Q2). destruct (Z_le_gt_dec (s_out s') (Z.of_nat q)) as [B|B]; [|apply Q2; lia]. specialize (L q Hq B). pose proof (Mo q (N - 1)%nat ltac:(lia) ltac:(lia)). lia.
Qed.
End Depths.
End Sweep.
