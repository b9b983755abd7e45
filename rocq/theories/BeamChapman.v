From Coq Require Import Reals Bool Arith Lia Lra Psatz.
From Verif Require Import DerivsModel DeltaMModel DeltaMSpec DeltaMProofs BeamModel BeamSpec BeamProofs.
Open Scope R_scope.

Lemma sin2 : forall mu, -1 <= mu <= 1 -> sin (acos mu) * sin (acos mu) = 1 - mu * mu.
Proof.
  intros mu H. rewrite sin_acos by exact H. rewrite sqrt_sqrt; [reflexivity|]. unfold Rsqr. nra.
Qed.

(** The slant factor of a shell. *)
Definition factor (r1 r2 b : R) : R := (sqrt (r1 * r1 - b) - sqrt (r2 * r2 - b)) / (r1 - r2).

Section Shell.
Variables (rho mu r1 r2 : R).
Hypothesis Hmu : 0 < mu <= 1.
Hypothesis Hrho : 0 < rho.
Hypothesis H2 : rho <= r2.
Hypothesis H1 : r2 < r1.
Let b := rho * rho * (1 - mu * mu).
Lemma under : forall r, rho <= r -> mu * r * (mu * r) <= r * r - b.
Proof.
  intros r H. unfold b. assert (rho * rho <= r * r) by (apply Rmult_le_compat; lra).
  assert (0 <= 1 - mu * mu) by nra. assert (0 <= (r * r - rho * rho) * (1 - mu * mu)) by (apply Rmult_le_pos; lra). lra.
Qed.
Lemma root_low : forall r, rho <= r -> mu * r <= sqrt (r * r - b).
Proof.
  intros r H. rewrite <- (sqrt_square (mu * r)); [|apply Rmult_le_pos; lra]. apply sqrt_le_1_alt. apply under. exact H.
Qed.
Lemma root_high : forall r, rho <= r -> sqrt (r * r - b) <= r.
Proof.
  intros r H. apply Rle_trans with (sqrt (r * r)); [|rewrite sqrt_square; lra]. apply sqrt_le_1_alt.
  assert (0 <= b) by (unfold b; apply Rmult_le_pos; nra). lra.
Qed.
Lemma factor_bounds : 1 <= factor r1 r2 b <= 1 / mu.
Proof.
  assert (L1 := root_low r1 ltac:(lra)). assert (L2 := root_low r2 H2). assert (U1 := root_high r1 ltac:(lra)). assert (U2 := root_high r2 H2).
  assert (S1 : sqrt (r1 * r1 - b) * sqrt (r1 * r1 - b) = r1 * r1 - b) by (apply sqrt_sqrt; pose proof (under r1 ltac:(lra)); nra).
  assert (S2 : sqrt (r2 * r2 - b) * sqrt (r2 * r2 - b) = r2 * r2 - b) by (apply sqrt_sqrt; pose proof (under r2 H2); nra).
  set (x := sqrt (r1 * r1 - b)) in *. set (y := sqrt (r2 * r2 - b)) in *.
  assert (P : 0 < x + y) by nra.
  assert (E : (x - y) * (x + y) = (r1 - r2) * (r1 + r2)) by nra.
  unfold factor. fold x y. assert (D : 0 < r1 - r2) by lra.
  assert (Q : (x - y) / (r1 - r2) = (r1 + r2) / (x + y)) by (apply (Rmult_eq_reg_r ((r1 - r2) * (x + y))); [field_simplify; [nra|lra|lra]|nra]).
  rewrite Q. split.
  - apply (Rmult_le_reg_r (x + y)); [exact P|]. unfold Rdiv. rewrite Rmult_assoc, Rinv_l by lra. lra.
  - apply (Rmult_le_reg_r (x + y)); [exact P|]. unfold Rdiv. rewrite Rmult_assoc, Rinv_l by lra.
    apply (Rmult_le_reg_l mu); [lra|]. field_simplify; [nra|lra].
Qed.
Lemma ray_distance : forall r s, on_ray rho mu r s -> s = sqrt (r * r - b) - rho * mu.
Proof.
  intros r s [S0 E]. assert ((s + rho * mu) * (s + rho * mu) = r * r - b) as <- by (unfold b; lra).
  rewrite sqrt_square; [lra|]. assert (0 <= rho * mu) by (apply Rmult_le_pos; lra). lra.
Qed.
End Shell.

(** A shallower angle at the same shell: the factor grows with the impact parameter. *)
Lemma factor_grows : forall r1 r2 b b', 0 < r2 -> r2 < r1 -> 0 <= b' -> b' < b -> b < r2 * r2 -> factor r1 r2 b' < factor r1 r2 b.
Proof.
  intros r1 r2 b b' P2 P1 B0 B1 B2. assert (r2 * r2 < r1 * r1) by nra.
  assert (X : forall c, c < r2 * r2 -> 0 < sqrt (r1 * r1 - c) /\ 0 < sqrt (r2 * r2 - c) /\
    sqrt (r1 * r1 - c) * sqrt (r1 * r1 - c) = r1 * r1 - c /\ sqrt (r2 * r2 - c) * sqrt (r2 * r2 - c) = r2 * r2 - c).
  { intros c C. refine (conj _ (conj _ (conj _ _))); [apply sqrt_lt_R0; lra|apply sqrt_lt_R0; lra|apply sqrt_sqrt; lra|apply sqrt_sqrt; lra]. }
  assert (Y1 : sqrt (r1 * r1 - b) < sqrt (r1 * r1 - b')) by (apply sqrt_lt_1_alt; lra).
  assert (Y2 : sqrt (r2 * r2 - b) < sqrt (r2 * r2 - b')) by (apply sqrt_lt_1_alt; lra).
  destruct (X b B2) as (A1 & A2 & A3 & A4). destruct (X b' ltac:(lra)) as (C1 & C2 & C3 & C4).
  unfold factor. apply Rmult_lt_compat_r; [apply Rinv_0_lt_compat; lra|].
  set (x := sqrt (r1 * r1 - b)) in *. set (y := sqrt (r2 * r2 - b)) in *. set (x' := sqrt (r1 * r1 - b')) in *. set (y' := sqrt (r2 * r2 - b')) in *.
  assert ((x - y) * (x + y) = r1 * r1 - r2 * r2) by nra. assert ((x' - y') * (x' + y') = r1 * r1 - r2 * r2) by nra.
  apply Rnot_le_lt. intros Le. assert (0 < x - y) by nra.
  assert ((x - y) * (x + y) < (x' - y') * (x' + y')); [|lra].
  apply Rlt_le_trans with ((x - y) * (x' + y')); [apply Rmult_lt_compat_l; lra|apply Rmult_le_compat_r; lra].
Qed.

(* ------------------------------------------------------------------------- *)
(** * The table                                                               *)

Section Table.
Variables (n : nat) (mu z0 : R) (z : nat -> R).
Hypothesis Hmu : 0 < mu <= 1.
Hypothesis Hz : forall i, (i < n)%nat -> z (S i) <= z i.
Hypothesis Hp : forall i, (i <= n)%nat -> 0 < z0 + z i.
Hypothesis Htop : z 1%nat < z 0%nat.
Lemma z_mono : forall j i, (j <= i)%nat -> (i <= n)%nat -> z i <= z j.
Proof.
  intros j i H. induction H as [|i H IH]; intros L; [lra|]. specialize (IH ltac:(lia)). specialize (Hz i ltac:(lia)). lra.
Qed.
Definition good (c : nat -> nat -> R) (i j : nat) : Prop :=
  1 <= c i j <= 1 / mu /\
  (z (S j) < z j -> c i j = factor (z0 + z j) (z0 + z (S j)) ((z0 + z (S i)) * (z0 + z (S i)) * (1 - mu * mu))).
Lemma entry_good : forall i j c, (i < n)%nat -> (j <= i)%nat ->
  (forall j', (j' < j)%nat -> good c i j') ->
  exists c', chapman_entry z0 z ((z0 + z (S i)) * (z0 + z (S i)) * (1 - mu * mu)) i j c = Some c' /\
    good c' i j /\ forall p r, (p, r) <> (i, j) -> c' p r = c p r.
Proof.
  intros i j c Li Lj G. unfold chapman_entry. cbv zeta. set (b := (z0 + z (S i)) * (z0 + z (S i)) * (1 - mu * mu)).
  assert (SO : forall v p r, (p, r) <> (i, j) -> set2 c i j v p r = c p r).
  { intros v p r Ne. unfold set2. destruct (Nat.eqb_spec p i); [|reflexivity]. destruct (Nat.eqb_spec r j); [|reflexivity]. subst. contradiction. }
  assert (SE : forall v, set2 c i j v i j = v) by (intros; unfold set2; now rewrite !Nat.eqb_refl).
  destruct (Req_EM_T (z0 + z j) (z0 + z (S j))) as [E|E].
  - destruct j as [|j]; [lra|]. eexists. split; [reflexivity|]. split; [|apply SO].
    unfold good. rewrite SE. split; [apply (G j); lia|]. intros Lt. lra.
  - eexists. split; [reflexivity|]. split; [|apply SO]. unfold good. rewrite SE. split; [|intros; reflexivity].
    assert (z (S j) < z j) by (specialize (Hz j ltac:(lia)); lra).
    apply factor_bounds.
    + exact Hmu.
    + apply Hp. lia.
    + assert (M := z_mono (S j) (S i) ltac:(lia) ltac:(lia)). lra.
    + lra.
Qed.
Lemma row_good : forall i c m, (i < n)%nat -> (m <= S i)%nat ->
  exists c', loop m (fun j s => match s with Some c => chapman_entry z0 z ((z0 + z (S i)) * (z0 + z (S i)) * (1 - mu * mu)) i j c | None => None end) (Some c) = Some c' /\
    (forall j, (j < m)%nat -> good c' i j) /\ forall p r, (p <> i \/ m <= r)%nat -> c' p r = c p r.
Proof.
  intros i c m Li. induction m as [|m IH]; intros Lm.
  - exists c. split; [reflexivity|]. split; [intros; lia|reflexivity].
  - destruct (IH ltac:(lia)) as (c1 & E1 & G1 & O1). cbn [loop]. rewrite E1.
    destruct (entry_good i m c1 Li ltac:(lia) G1) as (c2 & E2 & G2 & O2). exists c2. split; [exact E2|]. split.
    + intros j Lj. destruct (Nat.eq_dec j m) as [->|Ne]; [exact G2|].
      unfold good. rewrite O2 by (intros E; injection E; lia). apply G1. lia.
    + intros p r H. rewrite O2 by (intros E; injection E as -> ->; lia). apply O1. lia.
Qed.
Lemma table_good : forall c, exists c', chapman_functions n mu z0 z c = Some c' /\
  forall i j, (i < n)%nat -> (j <= i)%nat -> good c' i j.
Proof.
  intros c. unfold chapman_functions. rewrite sin2 by lra. cbv zeta.
  assert (K : forall m, (m <= n)%nat -> exists c', loop m (fun i s => loop (S i) (fun j s => match s with Some c =>
       chapman_entry z0 z ((z0 + z (S i)) * (z0 + z (S i)) * (1 - mu * mu)) i j c | None => None end) s) (Some c) = Some c' /\
       forall i j, (i < m)%nat -> (j <= i)%nat -> good c' i j).
  { induction m as [|m IH]; intros L.
    - exists c. split; [reflexivity|]. intros; lia.
    - destruct (IH ltac:(lia)) as (c1 & E1 & G1).
      change (exists c', loop (S m) (fun j s => match s with Some c =>
       chapman_entry z0 z ((z0 + z (S m)) * (z0 + z (S m)) * (1 - mu * mu)) m j c | None => None end)
         (loop m (fun i s => loop (S i) (fun j s => match s with Some c =>
       chapman_entry z0 z ((z0 + z (S i)) * (z0 + z (S i)) * (1 - mu * mu)) i j c | None => None end) s) (Some c)) = Some c' /\
       forall i j, (i < S m)%nat -> (j <= i)%nat -> good c' i j).
      rewrite E1. destruct (row_good m c1 (S m) ltac:(lia) ltac:(lia)) as (c2 & E2 & G2 & O2). exists c2. split; [exact E2|].
      intros i j Li Lj. destruct (Nat.eq_dec i m) as [->|Ne]; [apply G2; lia|].
      unfold good. rewrite O2 by (left; lia). apply G1; lia. }
  apply K. lia.
Qed.
End Table.
