(** The operators of a layer, from hypotheses about the medium only. *)
From Coq Require Import Reals Bool Arith Lia Lra.
From Verif Require Import Base DeltaMSpec DeltaMProofs BeamProofs AddingModel AddingSpec AddingMat AddingDeriv RadianceModel RadianceProofs SingleProofs
  EigModel EigSpec EigMat EigCore EigProofs EigEnergy.
Open Scope R_scope.

Lemma eigensystem_meq : forall n a b e, meq n a b -> eigensystem n a e -> eigensystem n b e.
Proof.
  intros n a b e H (N & E). split; [exact N|]. intros i k Hi Hk. rewrite <- (E i k Hi Hk). apply total_ext. intros j Hj. rewrite (H i j Hi Hj). reflexivity.
Qed.
Section Layer.
Variable n : nat.
Variable solve : nat -> mat -> mat -> mat.
Variable eig : mat -> vec * mat.
Variable x : slab.
Notation cc := (factor x 1 * omega x).
Notation L := (ltau x).
Hypothesis Pos : (0 < n)%nat.
Hypothesis Solve1 : solver n (solve n).
Hypothesis EigS : eigensolver n eig.
Hypothesis Scat : scatters n (qx x) (qw x) cc (P_pp x) (P_mp x).
Hypothesis Sep : separable n (qx x) (qw x) cc (P_pp x) (P_mp x).
Lemma second_gam : meq n (second_order n (qx x) (qw x) cc (P_pp x) (P_mp x)) (gam n x).
Proof.
  intros i j Hi Hj. unfold second_order, gam, mmul. apply total_ext. intros k Hk.
  pose proof (mu_nz n x Scat i Hi). pose proof (mu_nz n x Scat k Hk).
  unfold t_minus_r, t_plus_r, less, madd, local_t, local_r, local_mat, scaled, mul_diag, diag_mul, inv_qx, ident, factor.
  destruct (Nat.eqb i k), (Nat.eqb k j); field; split; assumption.
Qed.
Lemma eig_ok : eigensystem n (gam n x) (eig (gam n x)).
Proof. apply EigS. destruct Sep as (e & E). exists e. exact (eigensystem_meq n _ _ e second_gam E). Qed.
Variables (solar thermal : bool).
Notation Jp := (source solar thermal (omega x) (flux0 x) (btran x) (as_0 x) (planck0 x) (planck1 x) L (Q_pm x)).
Notation Jm := (source solar thermal (omega x) (flux0 x) (btran x) (as_0 x) (planck0 x) (planck1 x) L (Q_mm x)).
Hypothesis LP : 0 <= L.
Hypothesis Solar : solar = true -> as_0 x <> 0 /\ nonresonant n (qx x) (qw x) cc (P_pp x) (P_mp x) (as_0 x) /\ atran x = exp (- as_0 x * L).
Hypothesis Thermal : thermal = true -> solver (n + n) (solve (n + n)%nat) /\ L <> 0.
Lemma layer_exact : forall down1 up2 up1 down2,
  interacts n (eig_layer n solve eig solar thermal x) down1 up2 up1 down2 <->
  exists Ip Im, transfers n (qx x) (qw x) cc (P_pp x) (P_mp x) Jp Jm L Ip Im /\ ends n L Ip Im down1 up2 up1 down2.
Proof.
  pose proof eig_ok as E.
  apply eig_layer_exact; try assumption.
  - exact (mu_nz n x Scat).
  - exact (evals_pos n eig x Scat E).
  - exact (X_m_nonsingular n eig x Scat E).
  - exact (gc_nonsingular n solve eig x Solve1 Scat E LP).
  - intros S. destruct (Solar S) as (A & B & C). refine (conj A (conj _ C)). exact (beam_f_nonsingular n x Scat A B).
Qed.
End Layer.

(** The light inside is determined by the light that enters. *)
Section Unique.
Variable n : nat.
Variables (mu w : vec) (c : R) (Ps Po : mat) (Jp Jm : beam) (depth : R).
Hypothesis Scat : scatters n mu w c Ps Po.
Lemma unique_light : 0 <= depth -> forall Ip Im Ip' Im', transfers n mu w c Ps Po Jp Jm depth Ip Im -> transfers n mu w c Ps Po Jp Jm depth Ip' Im' ->
  (forall i, (i < n)%nat -> Im i 0 = Im' i 0 /\ Ip i depth = Ip' i depth) ->
  forall i t, (i < n)%nat -> 0 <= t <= depth -> Ip i t = Ip' i t /\ Im i t = Im' i t.
Proof.
  intros LP Ip Im Ip' Im' H H' B i s Hi Hs.
  set (x := {| qx := mu; qw := w; zeroth := false; flux0 := 0; omega := 4 * c; ltau := depth; as_0 := 0; atran := 0; btran := 0; planck0 := 0; planck1 := 0;
               P_pp := Ps; P_mp := Po; Q_mm := zvec; Q_pm := zvec |}).
  assert (factor x 1 * omega x = c) as F. { unfold factor, x. cbn [zeroth omega]. field. }
  assert (forall k, (k < n)%nat -> qx x k <> 0) as Q. { intros k Hk. cbn [qx x]. destruct Scat as (P & _). destruct (P k Hk). lra. }
  assert (scatters n (qx x) (qw x) (factor x 1 * omega x) (P_pp x) (P_mp x)) as Sx. { rewrite F. exact Scat. }
  assert (transfers n (qx x) (qw x) (factor x 1 * omega x) (P_pp x) (P_mp x) Jp Jm (ltau x) Ip Im) as T1. { rewrite F. exact H. }
  assert (transfers n (qx x) (qw x) (factor x 1 * omega x) (P_pp x) (P_mp x) Jp Jm (ltau x) Ip' Im') as T2. { rewrite F. exact H'. }
  apply (sys_transfers n x Q) in T1. apply (sys_transfers n x Q) in T2.
  destruct (dark n x Sx (fun i s => Ip i s + - (1) * Ip' i s) (fun i s => Im i s + - (1) * Im' i s) depth LP) with (s := s) (i := i) as (D1 & D2); try assumption.
  - eapply sys_ext; [apply sys_plus; [exact T1|apply sys_scal; exact T2]|]. intros; cbv beta; split; ring.
  - intros k Hk. destruct (B k Hk) as (-> & ->). split; ring.
  - split; lra.
Qed.
End Unique.

(** A layer that does not scatter *)
Section Dull.
Variable n : nat.
Variables (mu w : vec) (c : R) (Ps Po : mat) (Jp Jm : beam) (depth : R).
Hypothesis Mu : forall i, (i < n)%nat -> 0 < mu i.
Hypothesis Dark : forall i j, (i < n)%nat -> (j < n)%nat -> c * Ps i j = 0 /\ c * Po i j = 0.
Hypothesis NoS : forall i t, (i < n)%nat -> Jp i t = 0 /\ Jm i t = 0.
Hypothesis LP : 0 <= depth.
Lemma dull_scattered : forall I J i t, (i < n)%nat -> scattered n w c Ps Po I J i t = 0.
Proof.
  intros I J i t Hi. unfold scattered. rewrite <- total_scale. apply total_zero. intros j Hj. destruct (Dark i j Hi Hj) as (A & B).
  transitivity (w j * ((c * Ps i j) * I j t + (c * Po i j) * J j t)); [ring|]. rewrite A, B. ring.
Qed.
Lemma dull_exact : forall d1 u2 u1 d2,
  (forall i, (i < n)%nat -> u1 i = exp (- depth / mu i) * u2 i /\ d2 i = exp (- depth / mu i) * d1 i) <->
  exists Ip Im, transfers n mu w c Ps Po Jp Jm depth Ip Im /\ ends n depth Ip Im d1 u2 u1 d2.
Proof.
  intros d1 u2 u1 d2.
  assert (forall i s, (i < n)%nat -> derivable_pt_lim (fun s => exp (- depth / mu i) * u2 i * exp (/ mu i * s)) s (/ mu i * (exp (- depth / mu i) * u2 i * exp (/ mu i * s)) + 0)) as DU.
  { intros i s Hi. eapply dl_eq; [apply dl_scal; apply dl_exp; apply dl_scal; apply dl_id|]. ring. }
  assert (forall i s, (i < n)%nat -> derivable_pt_lim (fun s => d1 i * exp (- / mu i * s)) s (- / mu i * (d1 i * exp (- / mu i * s)) + 0)) as DD.
  { intros i s Hi. eapply dl_eq; [apply dl_scal; apply dl_exp; apply dl_scal; apply dl_id|]. ring. }
  assert (forall i, (i < n)%nat -> exp (- depth / mu i) * u2 i * exp (/ mu i * depth) = u2 i) as EL.
  { intros i Hi. transitivity (u2 i * (exp (- depth / mu i) * exp (/ mu i * depth))); [ring|]. rewrite <- exp_plus.
    replace (- depth / mu i + / mu i * depth) with 0 by (unfold Rdiv; ring). rewrite exp_0. ring. }
  split.
  - intros H. exists (fun i s => exp (- depth / mu i) * u2 i * exp (/ mu i * s)), (fun i s => d1 i * exp (- / mu i * s)). split.
    + intros i s Hi Hs. pose proof (Mu i Hi). destruct (NoS i s Hi) as (N1 & N2). rewrite !dull_scattered by exact Hi. rewrite N1, N2. split.
      * eapply dl_eq; [apply DU; exact Hi|]. field. lra.
      * eapply dl_eq; [apply DD; exact Hi|]. field. lra.
    + intros i Hi. destruct (H i Hi) as (-> & ->). rewrite !Rmult_0_r, exp_0. rewrite EL by exact Hi.
      refine (conj _ (conj eq_refl (conj _ _))); try ring. rewrite Rmult_comm. f_equal. f_equal. unfold Rdiv. ring.
  - intros (Ip & Im & T & E) i Hi. pose proof (Mu i Hi) as M. destruct (E i Hi) as (E1 & E2 & E3 & E4).
    assert (forall s, 0 <= s <= depth -> derivable_pt_lim (Ip i) s (/ mu i * Ip i s + 0) /\ derivable_pt_lim (Im i) s (- / mu i * Im i s + 0)) as Q.
    { intros s Hs. destruct (T i s Hi Hs) as (A & B). destruct (NoS i s Hi) as (N1 & N2). rewrite dull_scattered in A, B by exact Hi. rewrite N1 in A. rewrite N2 in B.
      split; (eapply dl_eq; [eassumption|]); field; lra. }
    split.
    + rewrite <- E3. transitivity (exp (- depth / mu i) * u2 i * exp (/ mu i * 0)); [|rewrite Rmult_0_r, exp_0; ring].
      apply (same_solution (/ mu i) (Ip i) (fun s => exp (- depth / mu i) * u2 i * exp (/ mu i * s)) (fun _ => 0) 0 depth LP).
      * intros s Hs. apply Q. exact Hs.
      * intros s Hs. apply DU. exact Hi.
      * rewrite EL by exact Hi. exact E2.
    + rewrite <- E4. replace (exp (- depth / mu i) * d1 i) with (d1 i * exp (- / mu i * depth)) by (rewrite Rmult_comm; f_equal; f_equal; unfold Rdiv; ring).
      apply (same_solution (- / mu i) (Im i) (fun s => d1 i * exp (- / mu i * s)) (fun _ => 0) 0 depth LP).
      * intros s Hs. apply Q. exact Hs.
      * intros s Hs. apply DD. exact Hi.
      * rewrite Rmult_0_r, exp_0. rewrite E1. ring.
Qed.
End Dull.
