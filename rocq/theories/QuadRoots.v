(** The Legendre polynomial of degree n has n roots, which lie symmetrically. *)
From Coq Require Import Reals Lra Lia Arith.
From Verif Require Import DeltaMSpec DeltaMProofs ScatSpec ScatProofs QuadSpec QuadProofs.
Open Scope R_scope.

Lemma choose : forall m (Q : nat -> R -> Prop), (forall j, (j < m)%nat -> exists v, Q j v) -> exists b : nat -> R, forall j, (j < m)%nat -> Q j (b j).
Proof.
  induction m; intros Q H.
  - exists (fun _ => 0). intros; lia.
  - destruct (IHm Q) as (b & B). { intros j Hj. apply H. lia. }
    destruct (H m) as (v & V). { lia. }
    exists (fun j => if Nat.eqb j m then v else b j). intros j Hj. destruct (Nat.eqb_spec j m) as [->|E]; [exact V|apply B; lia].
Qed.
Lemma P_continuous : forall l, continuity (P l).
Proof. intros l. apply derivable_continuous. intros x. exists (dP l x). apply P_derivative. Qed.
Definition sg (i : nat) : R := if Nat.even i then 1 else -1.
Lemma sg_S : forall i, sg (S i) = - sg i.
Proof. intros. unfold sg. rewrite Nat.even_succ, <- Nat.negb_even. destruct (Nat.even i); cbn; ring. Qed.
Lemma sg_sq : forall i, sg i * sg i = 1.
Proof. intros. unfold sg. destruct (Nat.even i); ring. Qed.
Lemma P_one : forall l, P l 1 = 1.
Proof.
  apply two_steps; [reflexivity|reflexivity|]. intros k A B. pose proof (pos_INR k). apply (Rmult_eq_reg_l (INR k + 2)); [|lra]. rewrite step, A, B. ring.
Qed.
Lemma P_minus_one : forall l, P l (-1) = sg l.
Proof. intros. replace (-1) with (- (1)) by ring. rewrite parity, P_one. unfold sg. ring. Qed.

(** strictly decreasing sequences *)
Definition decreasing (n : nat) (r : nat -> R) : Prop := forall i j, (i < j)%nat -> (j < n)%nat -> r j < r i.
Lemma decreasing_distinct : forall n r, decreasing n r -> forall i j, (i < n)%nat -> (j < n)%nat -> r i = r j -> i = j.
Proof.
  intros n r D i j Hi Hj E. destruct (Nat.lt_trichotomy i j) as [A|[A|A]]; [|exact A|].
  - pose proof (D i j A Hj). lra.
  - pose proof (D j i A Hi). lra.
Qed.
Lemma decreasing_step : forall n r, (forall i, (S i < n)%nat -> r (S i) < r i) -> decreasing n r.
Proof.
  intros n r H i j L Hj. induction j; [lia|].
  destruct (Nat.eq_dec i j) as [->|NE]; [apply H; exact Hj|].
  assert (r j < r i) by (apply IHj; lia). pose proof (H j Hj). lra.
Qed.
Lemma same_values : forall n r s, decreasing n r -> decreasing n s ->
  (forall i, (i < n)%nat -> exists j, (j < n)%nat /\ r i = s j) -> (forall i, (i < n)%nat -> exists j, (j < n)%nat /\ s i = r j) ->
  forall i, (i < n)%nat -> r i = s i.
Proof.
  intros n r s DR DS A B i. induction i as [i IH] using lt_wf_ind. intros Hi.
  destruct (A i Hi) as (j & Hj & E). destruct (B i Hi) as (k & Hk & F).
  assert (~ (j < i)%nat) as NJ.
  { intros L. pose proof (IH j L Hj) as G. pose proof (DR j i L Hi). lra. }
  assert (~ (k < i)%nat) as NK.
  { intros L. pose proof (IH k L Hk) as G. pose proof (DS k i L Hi). lra. }
  assert (s j <= s i). { destruct (Nat.eq_dec j i) as [->|]; [lra|]. left. apply DS; lia. }
  assert (r k <= r i). { destruct (Nat.eq_dec k i) as [->|]; [lra|]. left. apply DR; lia. }
  lra.
Qed.

Lemma sign_root : forall l a b s, a < b -> s * s = 1 -> 0 < s * P l b -> 0 < - s * P l a -> exists z, a < z < b /\ P l z = 0.
Proof.
  intros l a b s AB SS HB HA.
  assert (P l a * P l b <= 0) as C.
  { assert (0 < (s * P l b) * (- s * P l a)) by (apply Rmult_lt_0_compat; assumption).
    replace ((s * P l b) * (- s * P l a)) with (- (s * s) * (P l a * P l b)) in H by ring. rewrite SS in H. lra. }
  destruct (IVT_cor (P l) a b (P_continuous l) ltac:(lra) C) as (z & (Z1 & Z2) & Z).
  exists z. split; [|exact Z]. split.
  - destruct Z1 as [|E]; [assumption|]. rewrite E, Z in HA. lra.
  - destruct Z2 as [|E]; [assumption|]. rewrite <- E, Z in HB. lra.
Qed.
(** just above a root the sign is the sign of the derivative *)
Lemma above_root : forall l z c s, s * s = 1 -> P l z = 0 -> 0 < s * dP l z -> z < c -> exists y, z < y < c /\ 0 < s * P l y.
Proof.
  intros l z c s SS Z D C.
  assert (derivable_pt_lim (fun x => s * P l x) z (s * dP l z)) as H by (apply (derivable_pt_lim_scal (P l)), P_derivative).
  destruct (H (s * dP l z) D) as (d & K).
  set (h := Rmin (d / 2) ((c - z) / 2)).
  assert (0 < h) as HP by (apply Rmin_glb_lt; [pose proof (cond_pos d); lra|lra]).
  assert (h <= d / 2) by apply Rmin_l. assert (h <= (c - z) / 2) by apply Rmin_r.
  exists (z + h). split; [lra|].
  specialize (K h ltac:(lra)). rewrite (Rabs_right h) in K by lra. specialize (K ltac:(pose proof (cond_pos d); lra)).
  rewrite Z, Rmult_0_r, Rminus_0_r in K.
  assert (0 < s * P l (z + h) / h) as Q by (unfold Rabs in K; destruct (Rcase_abs _); lra).
  replace (s * P l (z + h)) with (s * P l (z + h) / h * h) by (field; lra). apply Rmult_lt_0_compat; lra.
Qed.

(** n + 1 roots, where the polynomial before has alternating signs *)
Definition alternating (m : nat) (r : nat -> R) : Prop :=
  (forall i, (i < S m)%nat -> P (S m) (r i) = 0) /\ decreasing (S m) r /\ (forall i, (i < S m)%nat -> 0 < sg i * P m (r i)).
Lemma next : forall m r, alternating m r -> exists s, alternating (S m) s.
Proof.
  intros m r (RO & DE & SI).
  set (n := S m) in *.
  (* the points between which the new roots lie *)
  set (t := fun k => if Nat.eqb k 0 then 1 else if Nat.leb k n then r (k - 1)%nat else -1).
  assert (forall k, (k < n)%nat -> -1 < r k < 1) as IN by (intros k Hk; apply (root_inside n), RO, Hk).
  assert (forall k, (k <= n)%nat -> t (S k) < t k) as TD.
  { intros k Hk. unfold t. cbn [Nat.eqb]. destruct (Nat.leb_spec (S k) n) as [A|A].
    - replace (S k - 1)%nat with k by lia. destruct (Nat.eqb_spec k 0) as [->|NE]; [apply IN; exact A|].
      destruct (Nat.leb_spec k n); [|lia]. apply DE; lia.
    - assert (k = n) as -> by lia. destruct (Nat.eqb_spec n 0); [lia|]. rewrite Nat.leb_refl. apply IN. lia. }
  assert (forall k, (k <= S n)%nat -> 0 < sg k * P (S n) (t k)) as TS.
  { intros k Hk. unfold t. destruct (Nat.eqb_spec k 0) as [->|NE]. { rewrite P_one. cbn. lra. }
    destruct (Nat.leb_spec k n) as [A|A].
    - destruct k as [|k]; [lia|]. replace (S k - 1)%nat with k by lia. rewrite sg_S.
      pose proof (SI k ltac:(lia)) as Q. pose proof (step m (r k)) as E. fold n in E. rewrite (RO k ltac:(lia)) in E.
      pose proof (pos_INR m).
      apply (Rmult_lt_reg_l (INR m + 2)); [lra|]. rewrite Rmult_0_r.
      replace ((INR m + 2) * (- sg k * P (S n) (r k))) with (- sg k * ((INR m + 2) * P (S n) (r k))) by ring. rewrite E.
      replace (- sg k * ((2 * INR m + 3) * r k * 0 - (INR m + 1) * P m (r k))) with ((INR m + 1) * (sg k * P m (r k))) by ring.
      apply Rmult_lt_0_compat; lra.
    - assert (k = S n) as -> by lia. rewrite P_minus_one, sg_sq. lra. }
  destruct (choose (S n) (fun k z => t (S k) < z < t k /\ P (S n) z = 0)) as (s & HS).
  { intros k Hk. apply (sign_root (S n) (t (S k)) (t k) (sg k)).
    - apply TD. lia.
    - apply sg_sq.
    - apply TS. lia.
    - rewrite <- sg_S. apply TS. lia. }
  exists s. fold n.
  assert (decreasing (S n) s) as DS.
  { apply decreasing_step. intros i Hi. destruct (HS i ltac:(lia)) as ((A & _) & _). destruct (HS (S i) ltac:(lia)) as ((_ & B) & _). lra. }
  assert (forall i, (i < S n)%nat -> P (S n) (s i) = 0) as RS by (intros i Hi; apply HS; exact Hi).
  refine (conj RS (conj DS _)).
  intros k Hk. destruct (HS k Hk) as ((A & B) & Z).
  (* the sign of P n is that of the derivative *)
  pose proof (confluent n (s k)) as C. rewrite Z in C. pose proof (K_positive n (s k)) as KP. pose proof (pos_INR n).
  assert (0 < dP (S n) (s k) * P n (s k)) as DP.
  { apply (Rmult_lt_reg_l (INR n + 1)); [lra|]. lra. }
  destruct (Rlt_or_le 0 (sg k * dP (S n) (s k))) as [G|G].
  { apply (Rmult_lt_reg_l (sg k * dP (S n) (s k))); [exact G|].
    replace (sg k * dP (S n) (s k) * (sg k * P n (s k))) with ((sg k * sg k) * (dP (S n) (s k) * P n (s k))) by ring. rewrite sg_sq. lra. }
  exfalso.
  assert (0 < - sg k * dP (S n) (s k)) as G'.
  { destruct G as [G|G]; [lra|]. exfalso. assert (dP (S n) (s k) = 0) as D0.
    { apply (Rmult_eq_reg_l (sg k)); [lra|]. unfold sg. destruct (Nat.even k); lra. }
    rewrite D0 in DP. lra. }
  assert (- sg k * - sg k = 1) as SQ by (rewrite <- (sg_sq k); ring).
  destruct (above_root (S n) (s k) (t k) (- sg k) SQ Z G' B) as (y & (Y1 & Y2) & Y).
  destruct (sign_root (S n) y (t k) (sg k) Y2 (sg_sq k) (TS k ltac:(lia)) Y) as (z & (Z1 & Z2) & ZR).
  destruct (all_roots n s RS (decreasing_distinct _ _ DS) z ZR) as (j & Hj & E).
  destruct (HS j Hj) as ((J1 & J2) & _).
  destruct (Nat.lt_trichotomy j k) as [Q|[Q|Q]].
  - (* above t k *)
    assert (t k <= t (S j)).
    { destruct (Nat.eq_dec (S j) k) as [->|NE]; [lra|]. left.
      assert (decreasing (S (S n)) t) as DT by (apply decreasing_step; intros i Hi; apply TD; lia). apply DT; lia. }
    lra.
  - rewrite Q in E. lra.
  - pose proof (DS k j Q Hj). lra.
Qed.
Lemma roots_exist : forall m, exists r, alternating m r.
Proof.
  induction m as [|m (r & H)].
  - exists (fun _ => 0). split; [|split].
    + intros. cbn. reflexivity.
    + intros i j A B. lia.
    + intros i Hi. assert (i = 0)%nat as -> by lia. cbn. lra.
  - exact (next m r H).
Qed.
Lemma legendre_roots_exist : forall n, exists r, legendre_roots n r.
Proof.
  destruct n as [|m].
  - exists (fun _ => 0). split; intros; lia.
  - destruct (roots_exist m) as (r & A & B & _). exists r. split; assumption.
Qed.
Lemma legendre_roots_unique : forall n r s, legendre_roots n r -> legendre_roots n s -> forall i, (i < n)%nat -> r i = s i.
Proof.
  intros n r s (RR & DR) (RS & DS). destruct n as [|m]; [intros; lia|]. apply same_values; try assumption.
  - intros i Hi. apply (all_roots m s RS (decreasing_distinct _ _ DS)). apply RR, Hi.
  - intros i Hi. apply (all_roots m r RR (decreasing_distinct _ _ DR)). apply RS, Hi.
Qed.
Lemma legendre_roots_symmetric : forall n r, legendre_roots n r -> forall i, (i < n)%nat -> r (n - 1 - i)%nat = - r i.
Proof.
  intros n r H i Hi.
  enough (- r (n - 1 - i)%nat = r i) by lra.
  apply (legendre_roots_unique n (fun i => - r (n - 1 - i)%nat) r); [|exact H|exact Hi]. destruct H as (RO & DE). split.
  - intros k Hk. rewrite parity, RO by lia. ring.
  - intros k j A B. assert (r (n - 1 - k)%nat < r (n - 1 - j)%nat) by (apply DE; lia). lra.
Qed.
