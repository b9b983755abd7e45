(** Legendre polynomials: derivatives, Christoffel-Darboux, and what the points of a Gauss rule integrate. *)
From Coq Require Import Reals Lra Lia Arith.
From Verif Require Import DeltaMSpec DeltaMProofs ScatSpec ScatProofs AddingModel AddingSpec AddingMat EigMat EigCore EigProofs AddingDeriv QuadSpec.
Open Scope R_scope.

Notation P := legendre.
Lemma step : forall k x, (INR k + 2) * P (S (S k)) x = (2 * INR k + 3) * x * P (S k) x - (INR k + 1) * P k x.
Proof. intros. rewrite legendre_step. rewrite S_INR. field. pose proof (pos_INR k). lra. Qed.
Lemma P0 : forall x, P 0 x = 1. Proof. reflexivity. Qed.
Lemma P1 : forall x, P 1 x = x. Proof. reflexivity. Qed.

Lemma deq : forall (f g : R -> R) x d d', (forall y, f y = g y) -> d = d' -> derivable_pt_lim f x d -> derivable_pt_lim g x d'.
Proof. intros f g x d d' E <- H e He. destruct (H e He) as (k & A). exists k. intros h. rewrite <- !E. apply A. Qed.
(** the derivative *)
Fixpoint dP (l : nat) (x : R) : R :=
  match l with
  | O => 0
  | S k => match k with O => 1 | S j => ((2 * INR k + 1) * (P k x + x * dP k x) - INR k * dP j x) / (INR k + 1) end
  end.
Lemma dstep : forall k x, (INR k + 2) * dP (S (S k)) x = (2 * INR k + 3) * (P (S k) x + x * dP (S k) x) - (INR k + 1) * dP k x.
Proof.
  intros. change (dP (S (S k)) x) with (((2 * INR (S k) + 1) * (P (S k) x + x * dP (S k) x) - INR (S k) * dP k x) / (INR (S k) + 1)).
  rewrite S_INR. field. pose proof (pos_INR k). lra.
Qed.
Lemma two_steps : forall Q : nat -> Prop, Q 0%nat -> Q 1%nat -> (forall k, Q k -> Q (S k) -> Q (S (S k))) -> forall k, Q k.
Proof. intros Q A B H k. assert (Q k /\ Q (S k)) as []; [|assumption]. induction k as [|k []]; split; auto. Qed.
Lemma P_derivative : forall l x, derivable_pt_lim (P l) x (dP l x).
Proof.
  intros l x. revert l. apply two_steps.
  - apply (deq (fun _ => 1) _ _ 0); [reflexivity|reflexivity|apply derivable_pt_lim_const].
  - apply (deq (fun x => x) _ _ 1); [reflexivity|reflexivity|apply derivable_pt_lim_id].
  - intros k A B. set (c := / (INR k + 2)).
    assert (INR k + 2 <> 0) by (pose proof (pos_INR k); lra).
    apply (deq (fun y => c * ((2 * INR k + 3) * (y * P (S k) y) - (INR k + 1) * P k y)) _ _
                 (c * ((2 * INR k + 3) * (1 * P (S k) x + x * dP (S k) x) - (INR k + 1) * dP k x))).
    + intros y. apply (Rmult_eq_reg_l (INR k + 2)); [|assumption]. rewrite step. unfold c. field. assumption.
    + apply (Rmult_eq_reg_l (INR k + 2)); [|assumption]. rewrite dstep. unfold c. field. assumption.
    + apply (derivable_pt_lim_scal (fun y => (2 * INR k + 3) * (y * P (S k) y) - (INR k + 1) * P k y) c).
      apply (derivable_pt_lim_minus (fun y => (2 * INR k + 3) * (y * P (S k) y)) (fun y => (INR k + 1) * P k y)).
      * apply (derivable_pt_lim_scal (fun y => y * P (S k) y)).
        apply (derivable_pt_lim_mult (fun y => y) (P (S k))); [apply derivable_pt_lim_id|exact B].
      * apply (derivable_pt_lim_scal (P k)). exact A.
Qed.
Lemma both : forall l x, dP (S l) x - x * dP l x = (INR l + 1) * P l x /\ x * dP (S l) x - dP l x = (INR l + 1) * P (S l) x.
Proof.
  induction l; intros x.
  - cbn. split; ring.
  - destruct (IHl x) as [A B]. pose proof (pos_INR l) as N. rewrite S_INR.
    pose proof (dstep l x) as D. pose proof (step l x) as E.
    assert ((1 - x * x) * dP (S l) x = (INR l + 1) * (P l x - x * P (S l) x)) as F.
    { replace (dP l x) with (x * dP (S l) x - (INR l + 1) * P (S l) x) in A by lra. lra. }
    split.
    + apply (Rmult_eq_reg_l (INR l + 2)); [|lra]. rewrite Rmult_minus_distr_l, D.
      replace (dP l x) with (x * dP (S l) x - (INR l + 1) * P (S l) x) by lra. ring.
    + apply (Rmult_eq_reg_l (INR l + 2)); [|lra].
      replace ((INR l + 2) * (x * dP (S (S l)) x - dP (S l) x)) with (x * ((INR l + 2) * dP (S (S l)) x) - (INR l + 2) * dP (S l) x) by ring.
      rewrite D.
      replace ((INR l + 2) * ((INR l + 1 + 1) * P (S (S l)) x)) with ((INR l + 2) * ((INR l + 2) * P (S (S l)) x)) by ring. rewrite E.
      replace (dP l x) with (x * dP (S l) x - (INR l + 1) * P (S l) x) by lra.
      transitivity ((INR l + 2) * (INR l + 2) * x * P (S l) x - (INR l + 2) * ((1 - x * x) * dP (S l) x)); [ring|]. rewrite F. ring.
Qed.
Lemma dP_formula : forall l x, (1 - x * x) * dP (S l) x = (INR l + 1) * (P l x - x * P (S l) x).
Proof. intros. destruct (both l x) as [A B]. replace (dP l x) with (x * dP (S l) x - (INR l + 1) * P (S l) x) in A by lra. lra. Qed.
Lemma dP_difference : forall l x, dP (S (S l)) x - dP l x = (2 * INR l + 3) * P (S l) x.
Proof. intros. destruct (both l x) as [_ B]. destruct (both (S l) x) as [A _]. rewrite S_INR in A. lra. Qed.

(** the second derivative, inside *)
Lemma dP_derivative : forall l x, -1 < x < 1 ->
  derivable_pt_lim (dP (S l)) x ((2 * x * dP (S l) x - (INR l + 1) * (INR l + 2) * P (S l) x) / (1 - x * x)).
Proof.
  intros l x X.
  assert (1 - x * x <> 0) as NZ by nra.
  set (g := fun y => (INR l + 1) * (P l y - y * P (S l) y) / (1 - y * y)).
  assert (derivable_pt_lim g x ((2 * x * dP (S l) x - (INR l + 1) * (INR l + 2) * P (S l) x) / (1 - x * x))) as G.
  { apply (deq (fun y => ((INR l + 1) * (P l y - y * P (S l) y)) / (1 - y * y)) _ _
      (((INR l + 1) * (dP l x - (1 * P (S l) x + x * dP (S l) x)) * (1 - x * x) - (0 - (1 * x + x * 1)) * ((INR l + 1) * (P l x - x * P (S l) x))) / Rsqr (1 - x * x))).
    - reflexivity.
    - rewrite <- (dP_formula l x). destruct (both l x) as [_ B].
      replace (dP l x) with (x * dP (S l) x - (INR l + 1) * P (S l) x) by lra. unfold Rsqr. field. exact NZ.
    - apply (derivable_pt_lim_div (fun y => (INR l + 1) * (P l y - y * P (S l) y)) (fun y => 1 - y * y)); [| |exact NZ].
      + apply (derivable_pt_lim_scal (fun y => P l y - y * P (S l) y)).
        apply (derivable_pt_lim_minus (P l) (fun y => y * P (S l) y)); [apply P_derivative|].
        apply (derivable_pt_lim_mult (fun y => y) (P (S l))); [apply derivable_pt_lim_id|apply P_derivative].
      + apply (derivable_pt_lim_minus (fun _ => 1) (fun y => y * y)); [apply derivable_pt_lim_const|].
        apply (derivable_pt_lim_mult (fun y => y) (fun y => y)); apply derivable_pt_lim_id. }
  intros eps E. destruct (G eps E) as (d & D).
  assert (0 < Rmin d (Rmin (1 - x) (x + 1))) as M by (apply Rmin_glb_lt; [apply cond_pos|apply Rmin_glb_lt; lra]).
  exists (mkposreal _ M). cbn [pos]. intros h Hh Hl.
  assert (forall y, -1 < y < 1 -> dP (S l) y = g y) as EQ.
  { intros y Y. unfold g. rewrite <- dP_formula. field. nra. }
  assert (Rabs h < d /\ Rabs h < 1 - x /\ Rabs h < x + 1) as (A & B & C).
  { split; [|split]; eapply Rlt_le_trans; try exact Hl; [apply Rmin_l| |].
    - eapply Rle_trans; [apply Rmin_r|apply Rmin_l].
    - eapply Rle_trans; [apply Rmin_r|apply Rmin_r]. }
  assert (-1 < x + h < 1) as XH by (unfold Rabs in B, C; destruct (Rcase_abs h); lra).
  pose proof (D h Hh A) as DD. rewrite <- (EQ x X), <- (EQ (x + h) XH) in DD. exact DD.
Qed.

(** outside of (-1, 1) there is no root *)
Lemma growing : forall l x, 1 <= x -> 1 <= P l x <= P (S l) x.
Proof.
  induction l; intros x X.
  - rewrite P0, P1. lra.
  - destruct (IHl x X) as [A B]. pose proof (step l x) as E. pose proof (pos_INR l).
    split; [lra|]. apply (Rmult_le_reg_l (INR l + 2)); [lra|]. rewrite E.
    assert (0 <= (2 * INR l + 3) * ((x - 1) * P (S l) x)) by (apply Rmult_le_pos; [lra|]; apply Rmult_le_pos; lra).
    assert (0 <= (INR l + 1) * (P (S l) x - P l x)) by (apply Rmult_le_pos; lra). lra.
Qed.
Lemma parity : forall l x, P l (- x) = (if Nat.even l then 1 else -1) * P l x.
Proof.
  intros l x. revert l. apply two_steps.
  - cbn. ring.
  - cbn. ring.
  - intros k A B. pose proof (pos_INR k). apply (Rmult_eq_reg_l (INR k + 2)); [|lra].
    rewrite step, A, B. change (Nat.even (S (S k))) with (Nat.even k). rewrite Nat.even_succ, <- Nat.negb_even.
    transitivity ((if Nat.even k then 1 else -1) * ((INR k + 2) * P (S (S k)) x)); [|ring]. rewrite step.
    destruct (Nat.even k); cbn; ring.
Qed.
Lemma root_inside : forall l x, P l x = 0 -> -1 < x < 1.
Proof.
  intros l x E. split; apply Rnot_le_lt; intros C.
  - pose proof (growing l (- x)) as [G _]; [lra|]. rewrite parity, E in G. lra.
  - pose proof (growing l x) as [G _]; lra.
Qed.

(** Christoffel-Darboux *)
Definition K (n : nat) (x y : R) : R := total n (fun l => (2 * INR l + 1) * (P l x * P l y)).
Lemma christoffel : forall n x y, (x - y) * K (S n) x y = (INR n + 1) * (P (S n) x * P n y - P n x * P (S n) y).
Proof.
  induction n; intros.
  - unfold K. cbn. ring.
  - unfold K in *. change (total (S (S n)) ?f) with (total (S n) f + f (S n)). cbv beta. rewrite Rmult_plus_distr_l, IHn, !S_INR.
    transitivity ((INR n + 2) * P (S (S n)) x * P (S n) y - P (S n) x * ((INR n + 2) * P (S (S n)) y)); [|ring].
    rewrite !step. ring.
Qed.
Lemma confluent : forall n x, K (S n) x x = (INR n + 1) * (dP (S n) x * P n x - dP n x * P (S n) x).
Proof.
  induction n; intros.
  - unfold K. cbn. ring.
  - unfold K in *. change (total (S (S n)) ?f) with (total (S n) f + f (S n)). cbv beta. rewrite IHn, !S_INR.
    transitivity (((INR n + 2) * dP (S (S n)) x) * P (S n) x - dP (S n) x * ((INR n + 2) * P (S (S n)) x)); [|ring].
    rewrite step, dstep. ring.
Qed.
Lemma K_positive : forall n x, 1 <= K (S n) x x.
Proof.
  intros. unfold K. apply Rle_trans with ((fun l => (2 * INR l + 1) * (P l x * P l x)) 0%nat). { cbn. lra. }
  apply (total_ge_one (S n) (fun l => (2 * INR l + 1) * (P l x * P l x))); [|lia]. intros k _. pose proof (pos_INR k). nra.
Qed.
Lemma K_root : forall n x, P (S n) x = 0 -> K (S n) x x * (1 - x * x) = (INR n + 1) * P n x * ((INR n + 1) * P n x).
Proof.
  intros n x E. rewrite confluent, E. pose proof (dP_formula n x) as F. rewrite E in F.
  transitivity ((INR n + 1) * P n x * ((1 - x * x) * dP (S n) x)); [ring|]. rewrite F. ring.
Qed.
Lemma before_root : forall n x, P (S n) x = 0 -> P n x <> 0.
Proof.
  intros n x E Z. pose proof (K_root n x E) as A. pose proof (K_positive n x). pose proof (root_inside _ _ E). rewrite Z in A.
  assert (0 < K (S n) x x * (1 - x * x)) by (apply Rmult_lt_0_compat; nra). lra.
Qed.
(** the weight of a root *)
Definition weight (n : nat) (y : R) : R := 2 * (1 - y * y) / (INR (S n) * P n y * (INR (S n) * P n y)).
Lemma weight_K : forall n y, P (S n) y = 0 -> weight n y * K (S n) y y = 2.
Proof.
  intros n y E. unfold weight. pose proof (K_root n y E) as A. pose proof (before_root n y E). pose proof (root_inside _ _ E).
  rewrite S_INR. pose proof (pos_INR n).
  apply (Rmult_eq_reg_r (1 - y * y)); [|nra].
  transitivity (2 * (1 - y * y) / ((INR n + 1) * P n y * ((INR n + 1) * P n y)) * (K (S n) y y * (1 - y * y))); [ring|]. rewrite A. field. split; lra.
Qed.
Lemma weight_positive : forall n y, P (S n) y = 0 -> 0 < weight n y.
Proof.
  intros n y E. pose proof (weight_K n y E). pose proof (K_positive n y). apply Rnot_le_lt. intros C. nra.
Qed.

(** A Gauss rule of n + 1 points *)
Section Gauss.
Variables (m : nat) (x : nat -> R).
Notation n := (S m).
Hypothesis roots : forall i, (i < n)%nat -> P n (x i) = 0.
Hypothesis distinct : forall i j, (i < n)%nat -> (j < n)%nat -> x i = x j -> i = j.
Definition L (f : R -> R) : R := total n (fun i => weight m (x i) * f (x i)).

Lemma L_ext : forall f g, (forall y, f y = g y) -> L f = L g.
Proof using. intros. unfold L. apply total_ext. intros. rewrite H. reflexivity. Qed.
Lemma L_plus : forall f g, L (fun y => f y + g y) = L f + L g.
Proof using. intros. unfold L. rewrite <- total_plus. apply total_ext. intros. ring. Qed.
Lemma L_scale : forall c f, L (fun y => c * f y) = c * L f.
Proof using. intros. unfold L. rewrite <- total_scale. apply total_ext. intros. ring. Qed.

Lemma inverse : let A := fun i l => P l (x i) in let B := fun l j => (2 * INR l + 1) / 2 * P l (x j) * weight m (x j) in
  meq n (mmul n A B) ident /\ meq n (mmul n B A) ident.
Proof.
  intros A B.
  assert (meq n (mmul n A B) ident) as E.
  { intros i j Hi Hj. unfold mmul, A, B, ident.
    rewrite (total_ext n _ (fun l => weight m (x j) / 2 * ((2 * INR l + 1) * (P l (x i) * P l (x j))))) by (intros; field).
    rewrite total_scale. change (total n _) with (K n (x i) (x j)).
    destruct (Nat.eqb_spec i j) as [->|NE].
    - pose proof (weight_K m (x j) (roots j Hj)). lra.
    - pose proof (christoffel m (x i) (x j)) as C. rewrite (roots i Hi), (roots j Hj) in C.
      assert (x i - x j <> 0) by (intros Z; apply NE, distinct; [exact Hi|exact Hj|lra]).
      replace (K n (x i) (x j)) with 0; [ring|]. apply (Rmult_eq_reg_l (x i - x j)); [|assumption]. rewrite C. ring. }
  exact (conj E (right_inverse_left n A B E)).
Qed.
(** there are no other roots *)
Lemma all_roots : forall z, P n z = 0 -> exists i, (i < n)%nat /\ z = x i.
Proof.
  intros z Z.
  assert ((exists i, (i < n)%nat /\ z = x i) \/ (forall i, (i < n)%nat -> z <> x i)) as [H|H]; [|exact H|exfalso].
  { clear -m. induction n as [|k [(i & A & B)|C]].
    - right. intros; lia.
    - left. exists i. split; [lia|exact B].
    - destruct (Req_EM_T z (x k)) as [E|E].
      + left. exists k. split; [lia|exact E].
      + right. intros i Hi. destruct (Nat.eq_dec i k) as [->|]; [exact E|apply C; lia]. }
  destruct inverse as [_ BA]. set (A := fun i l => P l (x i)) in BA. set (B := fun l j => (2 * INR l + 1) / 2 * P l (x j) * weight m (x j)) in BA.
  set (v := fun l => (2 * INR l + 1) * P l z).
  assert (forall i, (i < n)%nat -> mv n A v i = 0) as E.
  { intros i Hi. pose proof (christoffel m (x i) z) as C. rewrite (roots i Hi), Z in C. unfold mv, A, v.
    rewrite (total_ext n _ (fun l => (2 * INR l + 1) * (P l (x i) * P l z))) by (intros; ring). change (total n _) with (K n (x i) z).
    apply (Rmult_eq_reg_l (x i - z)); [|intros D; apply (H i Hi); lra]. rewrite C. ring. }
  assert (v 0%nat = 0) as V.
  { rewrite <- (mv_ident n v 0%nat ltac:(lia)). transitivity (mv n (mmul n B A) v 0%nat).
    - unfold mv. apply total_ext. intros k Hk. rewrite BA by lia. reflexivity.
    - rewrite <- mv_mul. unfold mv at 1. apply total_zero. intros k Hk. rewrite E by exact Hk. ring. }
  unfold v in V. cbn in V. lra.
Qed.
Lemma low : forall a b, (a < n)%nat -> (b < n)%nat -> L (fun y => P a y * P b y) = if Nat.eqb a b then 2 / (2 * INR a + 1) else 0.
Proof.
  intros a b Ha Hb. destruct inverse as [_ BA]. pose proof (BA a b Ha Hb) as D. unfold mmul, ident in D. unfold L.
  pose proof (pos_INR a).
  rewrite (total_ext n _ (fun k => 2 / (2 * INR a + 1) * ((2 * INR a + 1) / 2 * P a (x k) * weight m (x k) * P b (x k)))) by (intros; field; lra).
  rewrite total_scale, D. destruct (Nat.eqb a b); ring.
Qed.
Lemma at_n : forall b, L (fun y => P n y * P b y) = 0.
Proof. intros. unfold L. apply total_zero. intros k Hk. rewrite roots by exact Hk. ring. Qed.
(** x P_a moves between the factors *)
Lemma shift : forall a b, 
  (INR a + 2) / (2 * INR a + 3) * L (fun y => P (S (S a)) y * P (S b) y) + (INR a + 1) / (2 * INR a + 3) * L (fun y => P a y * P (S b) y) =
  (INR b + 2) / (2 * INR b + 3) * L (fun y => P (S a) y * P (S (S b)) y) + (INR b + 1) / (2 * INR b + 3) * L (fun y => P (S a) y * P b y).
Proof using.
  clear roots distinct.
  intros. rewrite <- !L_scale, <- !L_plus. apply L_ext. intros y. pose proof (pos_INR a). pose proof (pos_INR b).
  transitivity (/ (2 * INR a + 3) * ((INR a + 2) * P (S (S a)) y + (INR a + 1) * P a y) * P (S b) y); [field; lra|].
  transitivity (P (S a) y * (/ (2 * INR b + 3) * ((INR b + 2) * P (S (S b)) y + (INR b + 1) * P b y))); [|field; lra].
  rewrite !step. field. lra.
Qed.
Lemma shift0 : forall a, 
  (INR a + 2) / (2 * INR a + 3) * L (fun y => P (S (S a)) y * P 0 y) + (INR a + 1) / (2 * INR a + 3) * L (fun y => P a y * P 0 y) =
  L (fun y => P (S a) y * P 1 y).
Proof using.
  clear roots distinct.
  intros. rewrite <- !L_scale, <- !L_plus. apply L_ext. intros y. pose proof (pos_INR a).
  transitivity (/ (2 * INR a + 3) * ((INR a + 2) * P (S (S a)) y + (INR a + 1) * P a y)); [rewrite P0; field; lra|].
  rewrite step, P1. field. lra.
Qed.
(** a = n + j, b + j < n *)
Lemma high : forall j b, (b + j < n)%nat -> L (fun y => P (n + j) y * P b y) = 0.
Proof.
  induction j as [j IH] using lt_wf_ind. intros b Hb.
  destruct j as [|j]. { rewrite Nat.add_0_r. apply at_n. }
  (* P (n+j+1): from P (n+j) times x *)
  assert (forall c, (c + S j < n)%nat -> L (fun y => P (m + j) y * P c y) = 0) as LOWER.
  { intros c Hc. destruct j as [|j].
    - rewrite Nat.add_0_r. rewrite low by lia. destruct (Nat.eqb_spec m c); [lia|reflexivity].
    - replace (m + S j)%nat with (n + j)%nat by lia. apply IH; lia. }
  assert (forall c, (c + j < n)%nat -> L (fun y => P (S (m + j)) y * P c y) = 0) as HERE.
  { intros c Hc. change (S (m + j)) with (n + j)%nat. apply IH; lia. }
  replace (n + S j)%nat with (S (S (m + j))) by lia. pose proof (pos_INR (m + j)).
  assert ((INR (m + j) + 2) / (2 * INR (m + j) + 3) <> 0) as NZ.
  { assert (0 < (INR (m + j) + 2) / (2 * INR (m + j) + 3)); [|lra]. apply Rdiv_lt_0_compat; lra. }
  apply (Rmult_eq_reg_l ((INR (m + j) + 2) / (2 * INR (m + j) + 3))); [|exact NZ].
  destruct b as [|b].
  - pose proof (shift0 (m + j)) as S0. rewrite (LOWER 0%nat), (HERE 1%nat) in S0 by lia. lra.
  - pose proof (shift (m + j) b) as S0. rewrite (LOWER (S b)), (HERE b), (HERE (S (S b))) in S0 by lia. lra.
Qed.
Lemma L_P : forall l, (l < 2 * n)%nat -> L (P l) = if Nat.eqb l 0 then 2 else 0.
Proof.
  intros l Hl. rewrite (L_ext (P l) (fun y => P l y * P 0 y)) by (intros; rewrite P0; ring).
  destruct (Nat.ltb_spec l n) as [A|A].
  - rewrite low by lia. destruct (Nat.eqb_spec l 0) as [->|]; [|reflexivity]. cbn. field.
  - replace l with (n + (l - n))%nat by lia. rewrite high by lia. destruct (Nat.eqb_spec (n + (l - n)) 0); [lia|reflexivity].
Qed.
End Gauss.
