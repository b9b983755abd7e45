(** The derivatives that are passed from layer to layer, at the levels of output *)
From Coq Require Import Reals Bool Arith List ZArith Lia Lra.
From Verif Require Import Base DeltaMSpec DeltaMProofs AddingModel AddingSpec EigModel TwoSpec TwoModel TwoDSpec TwoDModel ViewSpec ViewModel ViewProofs ViewDModel.
Open Scope R_scope.

Lemma read_at : forall (A : Type) (f : nat -> A) N q, (0 <= q)%Z -> (q < Z.of_nat N)%Z -> read N f q = Answer (f (Z.to_nat q)).
Proof. intros A f N q H1 H2. unfold read. destruct (Z.leb_spec 0 q); [|lia]. destruct (Z.ltb_spec q (Z.of_nat N)); [reflexivity|lia]. Qed.
Lemma written : forall q x f, write (Z.of_nat q) x f q = x. Proof. intros. unfold write. rewrite Z.eqb_refl. reflexivity. Qed.
Lemma untouched : forall p q x f, Z.of_nat q <> p -> write p x f q = f q. Proof. intros p q x f H. unfold write. destruct (Z.eqb_spec (Z.of_nat q) p); [contradiction|reflexivity]. Qed.

Section Sweep.
Variables (d : deck) (dl : deck_l) (fl : varied) (n_coef : nat) (m : nat) (umu : vec) (once : bool) (j : nat) (ws : nat -> wave) (wl : nat -> wave_l) (b b_l : vec).
Variable p : R.
Variable N : nat.
Variable lev : nat -> nat.
Hypothesis In : increasing N m lev.
Lemma ordered : forall a q, (a <= q)%nat -> (q < N)%nat -> (lev a <= lev q)%nat.
Proof. intros a q H Hq. destruct In as (_ & I & _). destruct (Nat.eq_dec a q) as [->|NE]; [lia|]. specialize (I a q ltac:(lia) Hq). lia. Qed.
(** The light at each level, along the path, and the error of its derivative *)
Variable V : R -> nat -> R.
Variable E : nat -> R.
Notation at_l l x := (derivable_pt_lim (fun s => V s l) p (x + E l)).
Section Up.
Hypothesis Step : forall k c', (k <= m)%nat -> at_l (S k) c' -> exists x, layer_call_l d dl fl n_coef true m umu once j false ws wl b b_l k (V p (S k)) c' = Answer (V p k, x) /\ at_l k x.
Definition up_inv_l (l : nat) (s : sweep_l) : Prop := (-1 <= z_out s < Z.of_nat N)%Z /\ z_I0 s = V p l /\ at_l l (z_I0l s) /\
  forall q, (q < N)%nat -> ((Z.of_nat q <= z_out s)%Z -> (lev q < l)%nat) /\ ((z_out s < Z.of_nat q)%Z -> (l <= lev q)%nat /\ exists x, z_Iul s q = Some x /\ at_l (lev q) x).
Lemma up_pass_l : forall l s, (lev 0 < l)%nat -> (l <= S m)%nat -> up_inv_l l s ->
  exists s', pass_l d dl fl n_coef true m umu once N lev j false ws wl b b_l (l - 1) s = Answer s' /\ up_inv_l (l - 1) s'.
Proof.
  intros l s L0 Lm ((O1 & O2) & I0 & Il & Q). unfold pass_l. rewrite I0. replace l with (S (l - 1)) in Il by lia. destruct (Step (l - 1) (z_I0l s) ltac:(lia) Il) as (x & Ex & Hx). replace (S (l - 1)) with l in Ex by lia. rewrite Ex. cbn [bind z_out z_I0 z_I0l z_Iul].
  destruct In as (N0 & I & Le). assert (0 <= z_out s)%Z as P by (destruct (Z_le_gt_dec 0 (z_out s)); [assumption|]; destruct (Q 0%nat N0) as (_ & Q2); specialize (Q2 ltac:(lia)); lia).
  rewrite read_at by lia. cbn [bind]. set (o := Z.to_nat (z_out s)). assert (z_out s = Z.of_nat o) as Eo by (unfold o; lia). assert (o < N)%nat as Ho by lia.
  destruct (Q o Ho) as (Qo & _). specialize (Qo ltac:(lia)).
  destruct (Nat.eqb_spec (l - 1) (lev o)) as [E1|NE]; eexists; (split; [reflexivity|]); unfold up_inv_l, give_l, inc; cbn [z_out z_I0 z_I0l z_Iul].
  - refine (conj _ (conj eq_refl (conj Hx _))); [lia|]. intros q Hq. split; [intros B; specialize (I q o ltac:(lia) Ho); lia|]. intros B. rewrite Eo in *.
    destruct (Nat.eq_dec q o) as [->|NE]; [rewrite written; split; [lia|]; exists x; rewrite <- E1; split; [reflexivity|exact Hx]|]. rewrite untouched by lia. destruct (Q q Hq) as (_ & Q2). destruct (Q2 ltac:(lia)) as (Q3 & Q4). split; [lia|exact Q4].
  - refine (conj _ (conj eq_refl (conj Hx _))); [lia|]. intros q Hq. destruct (Q q Hq) as (Q1 & Q2). split; [|intros B; destruct (Q2 B); split; [lia|assumption]]. intros B. pose proof (ordered q o ltac:(lia) Ho). lia.
Qed.
Lemma up_passes_l : forall c l s, (l = lev 0 + c)%nat -> (l <= S m)%nat -> up_inv_l l s ->
  exists s', passes_l d dl fl n_coef true m umu once N lev j c false ws wl b b_l (l - 1) s = Answer s' /\ up_inv_l (lev 0) s'.
Proof.
  induction c as [|c IH]; intros l s El Lm Iv; cbn [passes_l]; [eexists; split; [reflexivity|]; replace (lev 0%nat) with l by lia; exact Iv|].
  destruct (up_pass_l l s ltac:(lia) Lm Iv) as (s1 & -> & Iv1). cbn [bind]. exact (IH (l - 1)%nat s1 ltac:(lia) ltac:(lia) Iv1).
Qed.
Lemma sfi_up_l : forall x, at_l (S m) x -> exists f, sfi_l d dl fl n_coef true m umu once N lev j false ws wl b b_l (V p (S m)) x = Answer f /\ forall q, (q < N)%nat -> exists u, f q = Some u /\ at_l (lev q) u.
Proof.
  intros x Hx. pose proof In as In'. destruct In' as (N0 & I & Le). unfold sfi_l. rewrite read_at by lia. change (Z.to_nat 0) with 0%nat. cbn [bind]. pose proof (Le 0%nat N0). destruct (Nat.ltb_spec (S m) (lev 0%nat)); [lia|]. cbn [bind].
  assert (exists s, begin_l m N lev false {| z_out := Z.of_nat N - 1; z_I0 := V p (S m); z_I0l := x; z_Iul := fun _ => None |} = Answer s /\ up_inv_l (S m) s) as (s & -> & Iv).
  { unfold begin_l. cbn [z_out]. rewrite read_at by lia. cbn [bind]. replace (Z.to_nat (Z.of_nat N - 1)) with (N - 1)%nat by lia.
    destruct (Nat.eqb_spec (S m) (lev (N - 1)%nat)) as [E1|NE]; eexists; (split; [reflexivity|]); unfold up_inv_l, give_l, inc; cbn [z_out z_I0 z_I0l z_Iul]; (refine (conj _ (conj eq_refl (conj Hx _))); [lia|]).
    - intros q Hq. split; [intros B; specialize (I q (N - 1)%nat ltac:(lia) ltac:(lia)); lia|]. intros B. assert (q = N - 1)%nat as -> by lia. split; [lia|]. replace (Z.of_nat N - 1)%Z with (Z.of_nat (N - 1)) by lia. rewrite written, <- E1. exists x. split; [reflexivity|exact Hx].
    - intros q Hq. split; [|lia]. intros _. pose proof (ordered q (N - 1) ltac:(lia) ltac:(lia)). specialize (Le (N - 1)%nat ltac:(lia)). lia. }
  cbn [bind]. destruct (up_passes_l (S m - lev 0%nat) (S m) s ltac:(lia) ltac:(lia) Iv) as (s' & Es & (O & _ & _ & Q)). replace (S m - 1)%nat with m in Es by lia. rewrite Es. cbn [bind]. eexists. split; [reflexivity|].
  intros q Hq. destruct (Q q Hq) as (Q1 & Q2). destruct (Z_le_gt_dec (Z.of_nat q) (z_out s')) as [B|B]; [|apply Q2; lia]. specialize (Q1 B). pose proof (ordered 0 q ltac:(lia) Hq). lia.
Qed.
End Up.
Section Down.
Hypothesis Step : forall k c', (k <= m)%nat -> at_l k c' -> exists x, layer_call_l d dl fl n_coef true m umu once j true ws wl b b_l k (V p k) c' = Answer (V p (S k), x) /\ at_l (S k) x.
Definition down_inv_l (l : nat) (s : sweep_l) : Prop := (0 <= z_out s <= Z.of_nat N)%Z /\ z_I0 s = V p l /\ at_l l (z_I0l s) /\
  forall q, (q < N)%nat -> ((z_out s <= Z.of_nat q)%Z -> (l < lev q)%nat) /\ ((Z.of_nat q < z_out s)%Z -> (lev q <= l)%nat /\ exists x, z_Iul s q = Some x /\ at_l (lev q) x).
Lemma down_pass_l : forall l s, (l < lev (N - 1))%nat -> (l <= m)%nat -> down_inv_l l s ->
  exists s', pass_l d dl fl n_coef true m umu once N lev j true ws wl b b_l l s = Answer s' /\ down_inv_l (S l) s'.
Proof.
  intros l s L0 Lm ((O1 & O2) & I0 & Il & Q). unfold pass_l. rewrite I0. destruct (Step l (z_I0l s) Lm Il) as (x & Ex & Hx). rewrite Ex. cbn [bind z_out z_I0 z_I0l z_Iul].
  destruct In as (N0 & I & Le). assert (z_out s < Z.of_nat N)%Z as P by (destruct (Z_lt_ge_dec (z_out s) (Z.of_nat N)); [assumption|]; destruct (Q (N - 1)%nat ltac:(lia)) as (_ & Q2); specialize (Q2 ltac:(lia)); lia).
  rewrite read_at by lia. cbn [bind]. set (o := Z.to_nat (z_out s)). assert (z_out s = Z.of_nat o) as Eo by (unfold o; lia). assert (o < N)%nat as Ho by lia.
  destruct (Q o Ho) as (Qo & _). specialize (Qo ltac:(lia)).
  destruct (Nat.eqb_spec (S l) (lev o)) as [E1|NE]; eexists; (split; [reflexivity|]); unfold down_inv_l, give_l, inc; cbn [z_out z_I0 z_I0l z_Iul].
  - refine (conj _ (conj eq_refl (conj Hx _))); [lia|]. intros q Hq. split; [intros B; specialize (I o q ltac:(lia) Hq); lia|]. intros B. rewrite Eo in *.
    destruct (Nat.eq_dec q o) as [->|NE]; [rewrite written; split; [lia|]; exists x; rewrite <- E1; split; [reflexivity|exact Hx]|]. rewrite untouched by lia. destruct (Q q Hq) as (_ & Q2). destruct (Q2 ltac:(lia)) as (Q3 & Q4). split; [lia|exact Q4].
  - refine (conj _ (conj eq_refl (conj Hx _))); [lia|]. intros q Hq. destruct (Q q Hq) as (Q1 & Q2). split; [|intros B; destruct (Q2 B); split; [lia|assumption]]. intros B. pose proof (ordered o q ltac:(lia) Hq). lia.
Qed.
Lemma down_passes_l : forall c l s, (lev (N - 1) = l + c)%nat -> (l + c <= S m)%nat -> down_inv_l l s ->
  exists s', passes_l d dl fl n_coef true m umu once N lev j c true ws wl b b_l l s = Answer s' /\ down_inv_l (lev (N - 1)%nat) s'.
Proof.
  induction c as [|c IH]; intros l s El Lm Iv; cbn [passes_l]; [eexists; split; [reflexivity|]; rewrite El, Nat.add_0_r; exact Iv|].
  destruct (down_pass_l l s ltac:(lia) ltac:(lia) Iv) as (s1 & -> & Iv1). cbn [bind]. exact (IH (S l) s1 ltac:(lia) ltac:(lia) Iv1).
Qed.
Lemma sfi_down_l : forall x, at_l 0%nat x -> exists f, sfi_l d dl fl n_coef true m umu once N lev j true ws wl b b_l (V p 0%nat) x = Answer f /\ forall q, (q < N)%nat -> exists u, f q = Some u /\ at_l (lev q) u.
Proof.
  intros x Hx. pose proof In as In'. destruct In' as (N0 & I & Le). unfold sfi_l. rewrite read_at by lia. replace (Z.to_nat (Z.of_nat N - 1)) with (N - 1)%nat by lia. cbn [bind].
  assert (exists s, begin_l m N lev true {| z_out := 0; z_I0 := V p 0%nat; z_I0l := x; z_Iul := fun _ => None |} = Answer s /\ down_inv_l 0 s) as (s & -> & Iv).
  { unfold begin_l. cbn [z_out]. rewrite read_at by lia. cbn [bind]. change (Z.to_nat 0) with 0%nat.
    destruct (Nat.eqb_spec 0 (lev 0%nat)) as [E1|NE]; eexists; (split; [reflexivity|]); unfold down_inv_l, give_l, inc; cbn [z_out z_I0 z_I0l z_Iul]; (refine (conj _ (conj eq_refl (conj Hx _))); [lia|]).
    - intros q Hq. split; [intros B; specialize (I 0%nat q ltac:(lia) ltac:(lia)); lia|]. intros B. assert (q = 0)%nat as -> by lia. split; [lia|]. exists x. rewrite <- E1. split; [reflexivity|exact Hx].
    - intros q Hq. split; [|lia]. intros _. pose proof (ordered 0 q ltac:(lia) ltac:(lia)). lia. }
  cbn [bind]. destruct (down_passes_l (lev (N - 1)%nat) 0 s ltac:(lia) ltac:(specialize (Le (N - 1)%nat ltac:(lia)); lia) Iv) as (s' & Es & (O & _ & _ & Q)). rewrite Es. cbn [bind]. eexists. split; [reflexivity|].
  intros q Hq. destruct (Q q Hq) as (Q1 & Q2). destruct (Z_le_gt_dec (z_out s') (Z.of_nat q)) as [B|B]; [|apply Q2; lia]. specialize (Q1 B). pose proof (ordered q (N - 1) ltac:(lia) ltac:(lia)). lia.
Qed.
End Down.
End Sweep.
