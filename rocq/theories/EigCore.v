(** Solutions of the homogeneous equations dIp/dt = - t Ip + r Im, dIm/dt = t Im - r Ip from the eigenvectors of (t - r)(t + r). *)
From Coq Require Import Reals Bool Arith Lia Lra Setoid Morphisms.
From Verif Require Import Base DeltaMSpec DeltaMProofs BeamProofs AddingModel AddingSpec AddingMat SingleProofs EigModel EigSpec EigMat.
Open Scope R_scope.

Section Vectors.
Variable n : nat.
Lemma mv_ext : forall a u v i, (forall k, (k < n)%nat -> u k = v k) -> mv n a u i = mv n a v i.
Proof. intros. apply total_ext. intros. rewrite H by assumption. reflexivity. Qed.
Lemma mv_mext : forall a b u i, (i < n)%nat -> meq n a b -> mv n a u i = mv n b u i.
Proof. intros. apply total_ext. intros. rewrite H0 by assumption. reflexivity. Qed.
Lemma mv_plus : forall a u v i, mv n a (fun k => u k + v k) i = mv n a u i + mv n a v i.
Proof. intros. unfold mv. rewrite <- total_plus. apply total_ext. intros. ring. Qed.
Lemma total_minus : forall m f g, total m (fun k => f k - g k) = total m f - total m g.
Proof. intros. rewrite (total_ext m _ (fun k => f k + (- (1)) * g k)) by (intros; ring). rewrite total_plus, total_scale. ring. Qed.
Lemma mv_minus : forall a u v i, mv n a (fun k => u k - v k) i = mv n a u i - mv n a v i.
Proof. intros. unfold mv. rewrite <- total_minus. apply total_ext. intros. ring. Qed.
Lemma mv_scal : forall a t u i, mv n a (fun k => t * u k) i = t * mv n a u i.
Proof. intros. unfold mv. rewrite <- total_scale. apply total_ext. intros. ring. Qed.
Lemma mv_madd : forall a b u i, mv n (madd a b) u i = mv n a u i + mv n b u i.
Proof. intros. unfold mv, madd. rewrite <- total_plus. apply total_ext. intros. ring. Qed.
Lemma mv_less : forall a b u i, mv n (less a b) u i = mv n a u i - mv n b u i.
Proof. intros. unfold mv, less. rewrite <- total_minus. apply total_ext. intros. ring. Qed.
Lemma mv_scaled : forall a t u i, mv n (scaled t a) u i = t * mv n a u i.
Proof. intros. unfold mv, scaled. rewrite <- total_scale. apply total_ext. intros. ring. Qed.
Lemma mv_diag : forall a d u i, mv n (mul_diag a d) u i = mv n a (fun k => d k * u k) i.
Proof. intros. unfold mv, mul_diag. apply total_ext. intros. ring. Qed.
Lemma mv_zero : forall a u i, (forall k, (k < n)%nat -> u k = 0) -> mv n a u i = 0.
Proof. intros. apply total_zero. intros. rewrite H by assumption. ring. Qed.
Lemma mv_deriv : forall a (F : beam) (d : vec) i t, (forall k, (k < n)%nat -> derivable_pt_lim (F k) t (d k)) ->
  derivable_pt_lim (fun s => mv n a (fun k => F k s) i) t (mv n a d i).
Proof. intros. unfold mv. apply (dl_total n (fun k s => a i k * F k s)). intros k Hk. apply dl_scal. apply H. exact Hk. Qed.
End Vectors.

Section Core.
Variable n : nat.
Variables (t r V Vi : mat) (ev nu : vec).
Notation "a =~ b" := (meq n a b) (at level 70).
Notation "a ** b" := (mmul n a b) (at level 40, left associativity).
Notation "a *v v" := (mv n a v) (at level 40, left associativity).
Let tpr := madd t r.
Let tmr := less t r.
Hypothesis VVi : V ** Vi =~ ident.
Hypothesis ViV : Vi ** V =~ ident.
Hypothesis Eig : forall i k, (i < n)%nat -> (k < n)%nat -> ((tmr ** tpr) ** V) i k = ev k * V i k.
Hypothesis Nu : forall k, (k < n)%nat -> 0 < nu k /\ nu k * nu k = ev k.

Let W : mat := mul_dinv (tpr ** V) nu.
Let Xp : mat := scaled (/ 2) (madd V W).
Let Xm : mat := scaled (/ 2) (less V W).

(** The equations with the sources [sp], [sm] *)
Definition sys (sp sm : beam) (L : R) (Ip Im : beam) : Prop := forall i s, (i < n)%nat -> 0 <= s <= L ->
  derivable_pt_lim (Ip i) s (- (t *v (fun k => Ip k s)) i + (r *v (fun k => Im k s)) i - sp i s) /\
  derivable_pt_lim (Im i) s ((t *v (fun k => Im k s)) i - (r *v (fun k => Ip k s)) i + sm i s).

Lemma tpr_V : forall i k, (i < n)%nat -> (k < n)%nat -> (tpr ** V) i k = nu k * W i k.
Proof. intros i k Hi Hk. unfold W, mul_dinv. field. destruct (Nu k Hk). lra. Qed.
Lemma tmr_W : forall i k, (i < n)%nat -> (k < n)%nat -> (tmr ** W) i k = nu k * V i k.
Proof.
  intros i k Hi Hk. destruct (Nu k Hk) as (P & E).
  assert ((tmr ** W) i k = / nu k * ((tmr ** tpr) ** V) i k) as Q.
  { rewrite <- mmul_assoc. unfold mmul at 1 2, W, mul_dinv. rewrite <- total_scale. apply total_ext. intros j Hj.
    field. lra. }
  rewrite Q, Eig by assumption. rewrite <- E. field. lra.
Qed.
Lemma tmr_nonsingular : nonsingular n tmr /\ nonsingular n tpr.
Proof.
  apply factor_nonsingular. apply injective_nonsingular. intros v Hv.
  (* v = V y with y = Vi v; gamma v = V (ev y) *)
  assert (forall k, (k < n)%nat -> ev k * mv n Vi v k = 0) as E.
  { intros k Hk.
    assert (mv n Vi (mv n (tmr ** tpr) v) k = ev k * mv n Vi v k) as Q.
    { transitivity (mv n Vi (mv n (tmr ** tpr) (mv n V (mv n Vi v))) k).
      - apply mv_ext. intros j Hj. apply mv_ext. intros l Hl. rewrite mv_mul.
        rewrite <- (mv_ident n v l Hl) at 1. symmetry. apply mv_mext; [exact Hl|exact VVi].
      - transitivity (mv n Vi (mv n V (fun k => ev k * mv n Vi v k)) k).
        + apply mv_ext. intros j Hj. rewrite mv_mul. apply total_ext. intros l Hl. rewrite Eig by assumption. ring.
        + rewrite mv_mul. transitivity (mv n ident (fun k => ev k * mv n Vi v k) k); [apply mv_mext; [exact Hk|exact ViV]|].
          exact (mv_ident n (fun k => ev k * mv n Vi v k) k Hk). }
    rewrite <- Q. apply mv_zero. exact Hv. }
  intros i Hi. rewrite <- (mv_ident n v i Hi). transitivity (mv n (V ** Vi) v i).
  - symmetry. apply mv_mext; [exact Hi|exact VVi].
  - rewrite <- mv_mul. apply mv_zero. intros k Hk. destruct (Nu k Hk) as (P & Q). specialize (E k Hk). rewrite <- Q in E.
    apply Rmult_integral in E. destruct E as [E|E]; [|exact E]. apply Rmult_integral in E. lra.
Qed.

(** The modes *)
Definition mode_p (L : R) (al be : vec) : beam := fun i s => (Xp *v (fun k => exp (- nu k * s) * al k)) i + (Xm *v (fun k => exp (- nu k * (L - s)) * be k)) i.
Definition mode_m (L : R) (al be : vec) : beam := fun i s => - (Xm *v (fun k => exp (- nu k * s) * al k)) i - (Xp *v (fun k => exp (- nu k * (L - s)) * be k)) i.

Lemma mode_id1 : forall i k, (i < n)%nat -> (k < n)%nat -> (t ** Xp) i k + (r ** Xm) i k = nu k * Xp i k.
Proof.
  intros i k Hi Hk.
  assert ((t ** Xp) i k + (r ** Xm) i k = / 2 * ((tpr ** V) i k + (tmr ** W) i k)) as E.
  { unfold mmul, Xp, Xm, scaled, madd, less, tpr, tmr, madd, less.
    rewrite <- !total_plus, <- total_scale. apply total_ext. intros. ring. }
  rewrite E, tpr_V, tmr_W by assumption. unfold Xp, scaled, madd. ring.
Qed.
Lemma mode_id2 : forall i k, (i < n)%nat -> (k < n)%nat -> (t ** Xm) i k + (r ** Xp) i k = - (nu k * Xm i k).
Proof.
  intros i k Hi Hk.
  assert ((t ** Xm) i k + (r ** Xp) i k = / 2 * ((tpr ** V) i k - (tmr ** W) i k)) as E.
  { unfold mmul, Xp, Xm, scaled, madd, less, tpr, tmr, madd, less.
    rewrite <- total_plus, <- total_minus, <- total_scale. apply total_ext. intros. ring. }
  rewrite E, tpr_V, tmr_W by assumption. unfold Xm, scaled, less. ring.
Qed.
Lemma mode_id1v : forall u i, (i < n)%nat -> (t *v (Xp *v u)) i + (r *v (Xm *v u)) i = (Xp *v (fun k => nu k * u k)) i.
Proof.
  intros u i Hi. rewrite !mv_mul. unfold mv. rewrite <- total_plus. apply total_ext. intros k Hk.
  replace ((t ** Xp) i k * u k + (r ** Xm) i k * u k) with (((t ** Xp) i k + (r ** Xm) i k) * u k) by ring. rewrite mode_id1 by assumption. ring.
Qed.
Lemma mode_id2v : forall u i, (i < n)%nat -> (t *v (Xm *v u)) i + (r *v (Xp *v u)) i = - (Xm *v (fun k => nu k * u k)) i.
Proof.
  intros u i Hi. rewrite !mv_mul. unfold mv. rewrite <- total_plus.
  transitivity (- (1) * total n (fun k => Xm i k * (nu k * u k))); [|ring]. rewrite <- total_scale. apply total_ext. intros k Hk.
  replace ((t ** Xm) i k * u k + (r ** Xp) i k * u k) with (((t ** Xm) i k + (r ** Xp) i k) * u k) by ring. rewrite mode_id2 by assumption. ring.
Qed.
Lemma d_up : forall al k s, derivable_pt_lim (fun s => exp (- nu k * s) * al k) s (- (nu k * (exp (- nu k * s) * al k))).
Proof.
  intros. eapply dl_eq.
  - apply dl_mult; [|apply dl_const]. apply dl_exp. apply dl_scal. apply dl_id.
  - cbv beta. ring.
Qed.
Lemma d_dn : forall be L k s, derivable_pt_lim (fun s => exp (- nu k * (L - s)) * be k) s (nu k * (exp (- nu k * (L - s)) * be k)).
Proof.
  intros. eapply dl_eq.
  - apply dl_mult; [|apply dl_const]. apply dl_exp. apply dl_scal. apply dl_minus; [apply dl_const|apply dl_id].
  - cbv beta. ring.
Qed.
Lemma mv_opp : forall a u i, (a *v (fun k => - u k)) i = - (a *v u) i.
Proof. intros. unfold mv. transitivity (- (1) * total n (fun k => a i k * u k)); [|ring]. rewrite <- total_scale. apply total_ext. intros. ring. Qed.

Lemma modes_solve : forall L al be, sys (fun _ _ => 0) (fun _ _ => 0) L (mode_p L al be) (mode_m L al be).
Proof.
  intros L al be i s Hi Hs.
  set (u := fun k => exp (- nu k * s) * al k). set (v := fun k => exp (- nu k * (L - s)) * be k).
  assert (forall a, (a *v (fun k => mode_p L al be k s)) i = (a *v (Xp *v u)) i + (a *v (Xm *v v)) i) as EP.
  { intros a. rewrite <- mv_plus. apply mv_ext. intros k Hk. reflexivity. }
  assert (forall a, (a *v (fun k => mode_m L al be k s)) i = - (a *v (Xm *v u)) i - (a *v (Xp *v v)) i) as EM.
  { intros a. rewrite <- mv_opp, <- mv_minus. apply mv_ext. intros k Hk. reflexivity. }
  rewrite !EP, !EM.
  pose proof (mode_id1v u i Hi). pose proof (mode_id2v u i Hi). pose proof (mode_id1v v i Hi). pose proof (mode_id2v v i Hi).
  split.
  - eapply dl_eq.
    + apply dl_plus; [apply (mv_deriv n Xp (fun k s => exp (- nu k * s) * al k) (fun k => - (nu k * u k)))
                     |apply (mv_deriv n Xm (fun k s => exp (- nu k * (L - s)) * be k) (fun k => nu k * v k))]; intros k Hk; [apply d_up|apply d_dn].
    + rewrite mv_opp. lra.
  - eapply dl_eq.
    + apply dl_minus; [apply derivable_pt_lim_opp; apply (mv_deriv n Xm (fun k s => exp (- nu k * s) * al k) (fun k => - (nu k * u k)))
                     |apply (mv_deriv n Xp (fun k s => exp (- nu k * (L - s)) * be k) (fun k => nu k * v k))]; intros k Hk; [apply d_up|apply d_dn].
    + rewrite mv_opp. lra.
Qed.

(** Every solution is made of modes *)
Section Uniqueness.
Variables (L : R) (Hp Hm : beam).
Hypothesis LP : 0 <= L.
Hypothesis S0 : sys (fun _ _ => 0) (fun _ _ => 0) L Hp Hm.
Let p (s : R) : vec := fun i => Hp i s - Hm i s.
Let q (s : R) : vec := fun i => Hp i s + Hm i s.
Let y (s : R) : vec := Vi *v p s.
Let z (s : R) : vec := Vi *v (tmr *v q s).
Lemma p_deriv : forall i s, (i < n)%nat -> 0 <= s <= L -> derivable_pt_lim (fun s => p s i) s (- (tmr *v q s) i).
Proof.
  intros i s Hi Hs. destruct (S0 i s Hi Hs) as (A & B). eapply dl_eq; [exact (dl_minus _ _ _ _ _ A B)|].
  unfold tmr. rewrite mv_less. unfold q. rewrite !mv_plus. lra.
Qed.
Lemma q_deriv : forall i s, (i < n)%nat -> 0 <= s <= L -> derivable_pt_lim (fun s => q s i) s (- (tpr *v p s) i).
Proof.
  intros i s Hi Hs. destruct (S0 i s Hi Hs) as (A & B). eapply dl_eq; [exact (dl_plus _ _ _ _ _ A B)|].
  unfold tpr. rewrite mv_madd. unfold p. rewrite !mv_minus. lra.
Qed.
Lemma Vy : forall s i, (i < n)%nat -> (V *v y s) i = p s i.
Proof.
  intros s i Hi. unfold y. rewrite mv_mul. rewrite (mv_mext n _ ident) by (exact Hi || exact VVi). apply (mv_ident n _ i Hi).
Qed.
Lemma Vz : forall s i, (i < n)%nat -> (V *v z s) i = (tmr *v q s) i.
Proof.
  intros s i Hi. unfold z. rewrite mv_mul. rewrite (mv_mext n _ ident) by (exact Hi || exact VVi). apply (mv_ident n _ i Hi).
Qed.
Lemma y_deriv : forall k s, (k < n)%nat -> 0 <= s <= L -> derivable_pt_lim (fun s => y s k) s (- z s k).
Proof.
  intros k s Hk Hs. eapply dl_eq.
  - apply (mv_deriv n Vi (fun i s => p s i) (fun i => - (tmr *v q s) i)). intros i Hi. apply p_deriv; assumption.
  - rewrite mv_opp. reflexivity.
Qed.
Lemma z_deriv : forall k s, (k < n)%nat -> 0 <= s <= L -> derivable_pt_lim (fun s => z s k) s (- (nu k * nu k * y s k)).
Proof.
  intros k s Hk Hs. eapply dl_eq.
  - apply (mv_deriv n Vi (fun i s => (tmr *v q s) i) (fun i => (tmr *v (fun j => - (tpr *v p s) j)) i)). intros i Hi.
    apply (mv_deriv n tmr (fun j s => q s j) (fun j => - (tpr *v p s) j)). intros j Hj. apply q_deriv; assumption.
  - rewrite (mv_ext n Vi _ (fun i => - (tmr *v (tpr *v p s)) i)) by (intros; apply mv_opp).
    rewrite mv_opp. f_equal.
    transitivity ((Vi *v (V *v (fun k => nu k * nu k * y s k))) k).
    + apply mv_ext. intros i Hi. rewrite mv_mul.
      transitivity (((tmr ** tpr) *v (V *v y s)) i); [apply mv_ext; intros; symmetry; apply Vy; assumption|].
      rewrite mv_mul. apply total_ext. intros l Hl. rewrite Eig by assumption. destruct (Nu l Hl) as (_ & <-). ring.
    + rewrite mv_mul. rewrite (mv_mext n _ ident) by (exact Hk || exact ViV). exact (mv_ident n (fun k => nu k * nu k * y s k) k Hk).
Qed.
Let al : vec := fun k => (z 0 k + nu k * y 0 k) / (2 * nu k).
Let be : vec := fun k => - (z L k - nu k * y L k) / (2 * nu k).
Lemma u_is : forall k s, (k < n)%nat -> 0 <= s <= L -> z s k + nu k * y s k = exp (- nu k * s) * (2 * nu k * al k).
Proof.
  intros k s Hk Hs. destruct (Nu k Hk) as (P & _).
  apply (same_solution (- nu k) (fun s => z s k + nu k * y s k) (fun s => exp (- nu k * s) * (2 * nu k * al k)) (fun _ => 0) 0 s ltac:(lra)).
  - intros s' Hs'. eapply dl_eq; [apply dl_plus; [apply z_deriv|apply dl_scal; apply y_deriv]; try assumption; lra|]. cbv beta. ring.
  - intros s' Hs'. eapply dl_eq; [apply dl_mult; [|apply dl_const]; apply dl_exp; apply dl_scal; apply dl_id|]. cbv beta. ring.
  - replace (- nu k * 0) with 0 by ring. rewrite exp_0. unfold al. field. lra.
Qed.
Lemma w_is : forall k s, (k < n)%nat -> 0 <= s <= L -> z s k - nu k * y s k = - exp (- nu k * (L - s)) * (2 * nu k * be k).
Proof.
  intros k s Hk Hs. destruct (Nu k Hk) as (P & _).
  apply (same_solution (nu k) (fun s => z s k - nu k * y s k) (fun s => - exp (- nu k * (L - s)) * (2 * nu k * be k)) (fun _ => 0) s L ltac:(lra)).
  - intros s' Hs'. eapply dl_eq; [apply dl_minus; [apply z_deriv|apply dl_scal; apply y_deriv]; try assumption; lra|]. cbv beta. ring.
  - intros s' Hs'. eapply dl_eq; [apply dl_mult; [|apply dl_const]; apply derivable_pt_lim_opp; apply dl_exp; apply dl_scal; apply dl_minus; [apply dl_const|apply dl_id]|]. cbv beta. ring.
  - replace (- nu k * (L - L)) with 0 by ring. rewrite exp_0. unfold be. field. lra.
Qed.
Lemma q_is : forall s i, (i < n)%nat -> q s i = (W *v (fun k => z s k / nu k)) i.
Proof.
  intros s i Hi. destruct tmr_nonsingular as (NS & _). apply Rminus_diag_uniq.
  revert i Hi. apply (nonsingular_injective n tmr NS). intros i Hi. rewrite mv_minus.
  rewrite <- (Vz s i Hi), mv_mul. apply Rminus_diag_eq. apply total_ext. intros k Hk. rewrite tmr_W by assumption.
  destruct (Nu k Hk). field. lra.
Qed.
Lemma sys_modes : exists al be, forall i s, (i < n)%nat -> 0 <= s <= L -> Hp i s = mode_p L al be i s /\ Hm i s = mode_m L al be i s.
Proof.
  exists al, be. intros i s Hi Hs.
  assert (p s i = (V *v (fun k => exp (- nu k * s) * al k + exp (- nu k * (L - s)) * be k)) i) as EP.
  { rewrite <- (Vy s i Hi). apply mv_ext. intros k Hk. destruct (Nu k Hk) as (P & _).
    apply (Rmult_eq_reg_l (2 * nu k)); [|lra]. pose proof (u_is k s Hk Hs). pose proof (w_is k s Hk Hs). lra. }
  assert (q s i = (W *v (fun k => exp (- nu k * s) * al k - exp (- nu k * (L - s)) * be k)) i) as EQ.
  { rewrite (q_is s i Hi). apply mv_ext. intros k Hk. destruct (Nu k Hk) as (P & _).
    apply (Rmult_eq_reg_l (2 * nu k)); [|lra]. replace (2 * nu k * (z s k / nu k)) with (2 * z s k) by (field; lra).
    pose proof (u_is k s Hk Hs). pose proof (w_is k s Hk Hs). lra. }
  rewrite mv_plus in EP. rewrite mv_minus in EQ. unfold p in EP. unfold q in EQ.
  unfold mode_p, mode_m, Xp, Xm. rewrite !mv_scaled, !mv_madd, !mv_less. split; lra.
Qed.
End Uniqueness.
End Core.
