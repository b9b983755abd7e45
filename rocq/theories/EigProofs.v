(** The operators of the eigenvalue solver are those of the layer. *)
From Coq Require Import Reals Bool Arith Lia Lra Setoid Morphisms.
From Verif Require Import Base DeltaMSpec DeltaMProofs BeamProofs AddingModel AddingSpec AddingMat RadianceModel RadianceProofs SingleProofs
  EigModel EigSpec EigMat EigCore.
Open Scope R_scope.

Lemma total_split : forall n m f, total (n + m) f = total n f + total m (fun k => f (n + k)%nat).
Proof.
  intros n m f. induction m as [|m IH].
  - rewrite Nat.add_0_r. simpl. ring.
  - rewrite Nat.add_succ_r, !total_last, IH. ring.
Qed.
Lemma csolve_solves : forall n solve w v i, (0 < n)%nat -> solver n solve -> nonsingular n w -> (i < n)%nat -> mv n w (csolve solve w v) i = v i.
Proof.
  intros n solve w v i Pos C (p & H & K) Hi. rewrite product_meq in H, K.
  transitivity (mv n w (mv n p v) i).
  - apply mv_ext. intros k Hk. exact (csolve_inverse n solve C Pos w p v H K k Hk).
  - rewrite mv_mul, (mv_mext n _ ident) by (exact Hi || exact H). exact (mv_ident n v i Hi).
Qed.
Lemma total_pick : forall n i (f : nat -> R), (i < n)%nat -> total n (fun k => if Nat.eqb i k then f k else 0) = f i.
Proof.
  induction n as [|n IH]; intros i f Hi; [lia|]. rewrite total_last. destruct (Nat.eq_dec i n) as [->|E].
  - rewrite Nat.eqb_refl. rewrite total_zero; [ring|]. intros k Hk. destruct (Nat.eqb_spec n k); [lia|reflexivity].
  - rewrite IH by lia. destruct (Nat.eqb_spec i n); [lia|ring].
Qed.

Section Layer.
Variable n : nat.
Variable solve : nat -> mat -> mat -> mat.
Variable eig : mat -> vec * mat.
Variable x : slab.
Hypothesis Pos : (0 < n)%nat.
Hypothesis Solve1 : solver n (solve n).
Hypothesis Qx : forall i, (i < n)%nat -> qx x i <> 0.
Notation "a ** b" := (mmul n a b) (at level 40, left associativity).
Notation "a *v v" := (mv n a v) (at level 40, left associativity).
Notation "a =~ b" := (meq n a b) (at level 70).
Notation t := (local_t x).
Notation r := (local_r x).
Notation cc := (factor x 1 * omega x).
Notation tpr := (t_plus_r x).
Notation tmr := (t_minus_r x).
Notation X_p := (X_p n eig x).
Notation X_m := (X_m n eig x).
Notation nu := (nu n eig x).
Notation L := (ltau x).
Notation R_ := (glob_R n solve eig x).
Notation T_ := (glob_T n solve eig x).

(** The equation of transfer in matrix form *)
Lemma local_t_mv : forall v i, (i < n)%nat -> (t *v v) i = (cc * total n (fun j => qw x j * (P_pp x i j * v j)) - v i) / qx x i.
Proof.
  intros v i Hi. unfold local_t, mv.
  rewrite (total_ext n _ (fun k => cc / qx x i * (qw x k * (P_pp x i k * v k)) - (if Nat.eqb i k then (fun k => v k / qx x i) k else 0))).
  - rewrite total_minus, total_scale. rewrite (total_pick n i (fun k => v k / qx x i) Hi). field. exact (Qx i Hi).
  - intros k Hk. unfold local_mat, scaled, mul_diag, diag_mul, inv_qx. destruct (Nat.eqb_spec i k); [subst|]; field; exact (Qx _ Hi).
Qed.
Lemma local_r_mv : forall v i, (i < n)%nat -> (r *v v) i = - (cc * total n (fun j => qw x j * (P_mp x i j * v j))) / qx x i.
Proof.
  intros v i Hi. unfold local_r, mv.
  rewrite (total_ext n _ (fun k => - cc / qx x i * (qw x k * (P_mp x i k * v k)))).
  - rewrite total_scale. field. exact (Qx i Hi).
  - intros k Hk. unfold local_mat, scaled, mul_diag, diag_mul, inv_qx, factor. destruct (zeroth x); field; exact (Qx _ Hi).
Qed.
Lemma sys_transfers : forall Jp Jm Ip Im, transfers n (qx x) (qw x) cc (P_pp x) (P_mp x) Jp Jm L Ip Im <->
  sys n t r (fun i s => Jp i s / qx x i) (fun i s => Jm i s / qx x i) L Ip Im.
Proof.
  assert (forall I J i s, scattered n (qw x) cc (P_pp x) (P_mp x) I J i s =
    cc * total n (fun j => qw x j * (P_pp x i j * I j s)) + cc * total n (fun j => qw x j * (P_mp x i j * J j s))) as E.
  { intros. unfold scattered. rewrite <- Rmult_plus_distr_l, <- total_plus. f_equal. apply total_ext. intros. ring. }
  intros Jp Jm Ip Im. split; intros H i s Hi Hs; destruct (H i s Hi Hs) as (A & B); pose proof (Qx i Hi); split.
  - eapply dl_eq; [exact A|]. rewrite E, local_t_mv, local_r_mv by exact Hi. field. assumption.
  - eapply dl_eq; [exact B|]. rewrite E, local_t_mv, local_r_mv by exact Hi. field. assumption.
  - eapply dl_eq; [exact A|]. rewrite E, local_t_mv, local_r_mv by exact Hi. field. assumption.
  - eapply dl_eq; [exact B|]. rewrite E, local_t_mv, local_r_mv by exact Hi. field. assumption.
Qed.
Lemma sys_plus : forall sp sm sp' sm' Ip Im Ip' Im', sys n t r sp sm L Ip Im -> sys n t r sp' sm' L Ip' Im' ->
  sys n t r (fun i s => sp i s + sp' i s) (fun i s => sm i s + sm' i s) L (fun i s => Ip i s + Ip' i s) (fun i s => Im i s + Im' i s).
Proof.
  intros until Im'. intros H H' i s Hi Hs. destruct (H i s Hi Hs) as (A & B). destruct (H' i s Hi Hs) as (A' & B'). split.
  - eapply dl_eq; [apply dl_plus; [exact A|exact A']|]. rewrite !mv_plus. lra.
  - eapply dl_eq; [apply dl_plus; [exact B|exact B']|]. rewrite !mv_plus. lra.
Qed.
Lemma sys_scal : forall k sp sm Ip Im, sys n t r sp sm L Ip Im -> sys n t r (fun i s => k * sp i s) (fun i s => k * sm i s) L (fun i s => k * Ip i s) (fun i s => k * Im i s).
Proof.
  intros until Im. intros H i s Hi Hs. destruct (H i s Hi Hs) as (A & B). split.
  - eapply dl_eq; [apply dl_scal; exact A|]. rewrite !mv_scal. lra.
  - eapply dl_eq; [apply dl_scal; exact B|]. rewrite !mv_scal. lra.
Qed.
Lemma sys_ext : forall sp sm sp' sm' Ip Im, sys n t r sp sm L Ip Im -> (forall i s, (i < n)%nat -> 0 <= s <= L -> sp i s = sp' i s /\ sm i s = sm' i s) -> sys n t r sp' sm' L Ip Im.
Proof.
  intros until Im. intros H E i s Hi Hs. destruct (H i s Hi Hs) as (A & B). destruct (E i s Hi Hs) as (<- & <-). split; assumption.
Qed.
Lemma sys_zero : sys n t r (fun _ _ => 0) (fun _ _ => 0) L (fun _ _ => 0) (fun _ _ => 0).
Proof.
  intros i s Hi Hs. rewrite !mv_zero by reflexivity. split; (eapply dl_eq; [apply dl_const|ring]).
Qed.

(** The eigensystem *)
Hypothesis Eig : eigensystem n (gam n x) (eig (gam n x)).
Hypothesis Ev : forall k, (k < n)%nat -> 0 < evals n eig x k.
Lemma nu_ev : forall k, (k < n)%nat -> 0 < nu k /\ nu k * nu k = evals n eig x k.
Proof.
  intros k Hk. pose proof (Ev k Hk) as P. unfold EigModel.nu. rewrite Rabs_right by lra. split; [apply sqrt_lt_R0; exact P|apply sqrt_sqrt; lra].
Qed.
Lemma eig_ev : forall i k, (i < n)%nat -> (k < n)%nat -> ((tmr ** tpr) ** evecs n eig x) i k = evals n eig x k * evecs n eig x i k.
Proof. intros i k Hi Hk. exact (proj2 Eig i k Hi Hk). Qed.
Lemma txr_nonsingular : nonsingular n tmr /\ nonsingular n tpr.
Proof.
  destruct (proj1 Eig) as (Vi & H & K). rewrite product_meq in H, K.
  exact (tmr_nonsingular n t r (evecs n eig x) Vi (evals n eig x) nu H K eig_ev nu_ev).
Qed.
(** Modes of the layer *)
Definition hom_p := mode_p n t r (evecs n eig x) nu L.
Definition hom_m := mode_m n t r (evecs n eig x) nu L.
Lemma hom_solves : forall al be, sys n t r (fun _ _ => 0) (fun _ _ => 0) L (hom_p al be) (hom_m al be).
Proof. intros. apply (modes_solve n t r (evecs n eig x) (evals n eig x) nu eig_ev nu_ev). Qed.
Lemma hom_all : forall Hp Hm, 0 <= L -> sys n t r (fun _ _ => 0) (fun _ _ => 0) L Hp Hm ->
  exists al be, forall i s, (i < n)%nat -> 0 <= s <= L -> Hp i s = hom_p al be i s /\ Hm i s = hom_m al be i s.
Proof.
  intros Hp Hm LP H. destruct (proj1 Eig) as (Vi & VV & WW). rewrite product_meq in VV, WW.
  exact (sys_modes n t r (evecs n eig x) Vi (evals n eig x) nu VV WW eig_ev nu_ev L Hp Hm H).
Qed.

(** Reflection and transmission *)
Hypothesis XmN : nonsingular n X_m.
Hypothesis GcN : nonsingular n (gc n solve eig x).
Notation a := (ga n eig x).
Notation b := (gb n solve eig x).
Notation c := (gc n solve eig x).
Lemma a_mv : forall u i, (a *v u) i = (X_p *v (fun k => exp (- nu k * L) * u k)) i.
Proof. intros. unfold ga. rewrite mv_diag. reflexivity. Qed.
Lemma b_Xm : forall u i, (i < n)%nat -> (b *v (X_m *v u)) i = (a *v u) i.
Proof. intros u i Hi. rewrite mv_mul. apply mv_mext; [exact Hi|]. exact (Solve1 _ _ XmN). Qed.
Lemma c_mv : forall u i, (c *v u) i = (X_m *v u) i - (b *v (a *v u)) i.
Proof. intros. unfold gc. rewrite mv_less, mv_mul. reflexivity. Qed.
Lemma d_c : forall u i, (i < n)%nat -> (gd n solve eig x *v (c *v u)) i = (X_p *v u) i.
Proof. intros u i Hi. rewrite mv_mul. apply mv_mext; [exact Hi|]. exact (Solve1 _ _ GcN). Qed.
Lemma e_c : forall u i, (i < n)%nat -> (ge n solve eig x *v (c *v u)) i = (X_m *v (fun k => exp (- nu k * L) * u k)) i.
Proof.
  intros u i Hi. rewrite mv_mul. transitivity (((mul_diag X_m (lambda n eig x)) *v u) i); [apply mv_mext; [exact Hi|]; exact (Solve1 _ _ GcN)|].
  rewrite mv_diag. reflexivity.
Qed.
Lemma hom_m0 : forall al be i, hom_m al be i 0 = - (X_m *v al) i - (a *v be) i.
Proof.
  intros. rewrite a_mv. unfold hom_m, mode_m. f_equal; [f_equal|]; apply mv_ext; intros k Hk.
  - rewrite Rmult_0_r, exp_0. ring.
  - rewrite Rminus_0_r. reflexivity.
Qed.
Lemma hom_pL : forall al be i, hom_p al be i L = (a *v al) i + (X_m *v be) i.
Proof.
  intros. rewrite a_mv. unfold hom_p, mode_p. f_equal; apply mv_ext; intros k Hk. rewrite Rminus_diag_eq, Rmult_0_r, exp_0 by reflexivity. ring.
Qed.
Lemma hom_p0 : forall al be i, hom_p al be i 0 = (X_p *v al) i + (X_m *v (fun k => exp (- nu k * L) * be k)) i.
Proof.
  intros. unfold hom_p, mode_p. f_equal; apply mv_ext; intros k Hk.
  - rewrite Rmult_0_r, exp_0. ring.
  - rewrite Rminus_0_r. reflexivity.
Qed.
Lemma hom_mL : forall al be i, hom_m al be i L = - (X_m *v (fun k => exp (- nu k * L) * al k)) i - (X_p *v be) i.
Proof.
  intros. unfold hom_m, mode_m. f_equal; apply mv_ext; intros k Hk. rewrite Rminus_diag_eq, Rmult_0_r, exp_0 by reflexivity. ring.
Qed.
Lemma global_exact : forall al be i, (i < n)%nat ->
  hom_p al be i 0 = (R_ *v (fun k => hom_m al be k 0)) i + (T_ *v (fun k => hom_p al be k L)) i /\
  hom_m al be i L = (T_ *v (fun k => hom_m al be k 0)) i + (R_ *v (fun k => hom_p al be k L)) i.
Proof.
  intros al be.
  set (i0 := fun k => hom_m al be k 0). set (jL := fun k => hom_p al be k L).
  assert (forall k, (k < n)%nat -> (b *v i0) k + jL k = (c *v be) k) as E1.
  { intros k Hk. unfold i0, jL. rewrite (mv_ext n b _ (fun k => - (X_m *v al) k - (a *v be) k)) by (intros; apply hom_m0).
    rewrite mv_minus, mv_opp, b_Xm, hom_pL, c_mv by exact Hk. ring. }
  assert (forall k, (k < n)%nat -> i0 k + (b *v jL) k = - (c *v al) k) as E2.
  { intros k Hk. unfold i0, jL. rewrite (mv_ext n b _ (fun k => (a *v al) k + (X_m *v be) k)) by (intros; apply hom_pL).
    rewrite mv_plus, b_Xm, hom_m0, c_mv by exact Hk. ring. }
  assert (forall u v i, (i < n)%nat -> (R_ *v u) i + (T_ *v v) i = (ge n solve eig x *v (fun k => (b *v u) k + v k)) i - (gd n solve eig x *v (fun k => u k + (b *v v) k)) i) as E3.
  { intros u v i Hi. unfold glob_R, glob_T. rewrite !mv_less, !mv_plus, !mv_mul. ring. }
  intros i Hi. rewrite (Rplus_comm ((T_ *v i0) i)), !E3 by exact Hi. split.
  - rewrite (mv_ext n (ge n solve eig x) _ (c *v be)) by exact E1. rewrite (mv_ext n (gd n solve eig x) _ (fun k => - (c *v al) k)) by exact E2.
    rewrite mv_opp, d_c, e_c, hom_p0 by exact Hi. ring.
  - rewrite (mv_ext n (ge n solve eig x) _ (fun k => - (c *v al) k)) by (intros k Hk; rewrite <- E2 by exact Hk; ring).
    rewrite (mv_ext n (gd n solve eig x) _ (c *v be)) by (intros k Hk; rewrite <- E1 by exact Hk; ring).
    rewrite mv_opp, d_c, e_c, hom_mL by exact Hi. ring.
Qed.
(** Any incident light *)
Lemma hom_any : forall u v, exists al be, forall i, (i < n)%nat -> hom_m al be i 0 = u i /\ hom_p al be i L = v i.
Proof.
  intros u v.
  destruct (onto n c (nonsingular_injective n c GcN) (fun i => - (u i + (b *v v) i))) as (al & Al).
  destruct (onto n X_m (nonsingular_injective n X_m XmN) (fun i => v i - (a *v al) i)) as (be & Be).
  exists al, be. intros i Hi. split.
  - rewrite hom_m0. rewrite <- (b_Xm be i Hi). rewrite (mv_ext n b _ (fun i => v i - (a *v al) i)) by exact Be.
    rewrite mv_minus. pose proof (Al i Hi) as A. rewrite c_mv in A. lra.
  - rewrite hom_pL, Be by exact Hi. ring.
Qed.

(** The beam *)
Section Beam.
Hypothesis As0 : as_0 x <> 0.
Hypothesis BfN : nonsingular n (beam_f n x).
Notation p := (beam_p n solve x).
Notation h := (beam_h n solve x).
Notation e := (beam_e x).
Notation d := (beam_d x).
Lemma tpr_mv : forall u i, (tpr *v u) i = (t *v u) i + (r *v u) i. Proof. intros. apply mv_madd. Qed.
Lemma tmr_mv : forall u i, (tmr *v u) i = (t *v u) i - (r *v u) i. Proof. intros. apply mv_less. Qed.
Lemma beam_f_mv : forall u i, (i < n)%nat -> (beam_f n x *v u) i = (tmr *v (tpr *v u)) i - as_0 x * as_0 x * u i.
Proof.
  intros u i Hi. rewrite mv_mul. unfold beam_f, mv.
  rewrite (total_ext n _ (fun k => gam n x i k * u k - (if Nat.eqb i k then (fun k => as_0 x * as_0 x * u k) k else 0))).
  - rewrite total_minus, (total_pick n i (fun k => as_0 x * as_0 x * u k) Hi). reflexivity.
  - intros k Hk. destruct (Nat.eqb i k); ring.
Qed.
Lemma p_eq : forall i, (i < n)%nat -> (tmr *v (tpr *v p)) i - as_0 x * as_0 x * p i = - as_0 x * d i - (tmr *v e) i.
Proof.
  intros i Hi. rewrite <- beam_f_mv by exact Hi. unfold p at 1. rewrite (csolve_solves n (solve n) _ _ i Pos Solve1 BfN Hi). reflexivity.
Qed.
Lemma Fs_sum : forall i, Fs_p n solve x i + Fs_m n solve x i = h i / as_0 x.
Proof. intros. unfold Fs_m, Fs_p, vless, vscale, vadd. field. exact As0. Qed.
Lemma Fs_diff : forall i, Fs_p n solve x i - Fs_m n solve x i = p i.
Proof. intros. unfold Fs_m, vless. ring. Qed.
Lemma beam_solves : sys n t r (fun i s => beam_v1 x i * exp (- as_0 x * s)) (fun i s => beam_v2 x i * exp (- as_0 x * s)) L
  (fun i s => Fs_p n solve x i * exp (- as_0 x * s)) (fun i s => Fs_m n solve x i * exp (- as_0 x * s)).
Proof.
  assert (forall u i s, (t *v (fun k => u k * exp (- as_0 x * s))) i = exp (- as_0 x * s) * (t *v u) i) as ET.
  { intros. rewrite <- mv_scal. apply mv_ext. intros. ring. }
  assert (forall u i s, (r *v (fun k => u k * exp (- as_0 x * s))) i = exp (- as_0 x * s) * (r *v u) i) as ER.
  { intros. rewrite <- mv_scal. apply mv_ext. intros. ring. }
  intros i s Hi _. rewrite !ET, !ER.
  set (fp := Fs_p n solve x). set (fm := Fs_m n solve x).
  (* sum and difference *)
  assert ((tpr *v p) i + e i = as_0 x * (fp i + fm i)) as S1.
  { unfold fp, fm. rewrite Fs_sum. transitivity (h i); [reflexivity|field; exact As0]. }
  assert ((tmr *v (fun k => fp k + fm k)) i = as_0 x * (fp i - fm i) - d i) as S2.
  { rewrite (mv_ext n tmr _ (fun k => / as_0 x * h k)) by (intros; unfold fp, fm; rewrite Fs_sum; field; exact As0).
    rewrite mv_scal. rewrite (mv_ext n tmr h (fun k => (tpr *v p) k + e k)) by reflexivity. rewrite mv_plus.
    unfold fp, fm. rewrite Fs_diff. pose proof (p_eq i Hi) as E. apply (Rmult_eq_reg_l (as_0 x)); [|exact As0]. 
    replace (as_0 x * (/ as_0 x * ((tmr *v (tpr *v p)) i + (tmr *v e) i))) with ((tmr *v (tpr *v p)) i + (tmr *v e) i) by (field; exact As0). lra. }
  rewrite tmr_mv, !mv_plus in S2. rewrite tpr_mv in S1.
  rewrite (mv_ext n t p (fun k => fp k - fm k)), (mv_ext n r p (fun k => fp k - fm k)), !mv_minus in S1 by (intros; symmetry; apply Fs_diff).
  unfold beam_d, beam_e, vless, vadd in S1, S2.
  assert (- as_0 x * fp i = - (t *v fp) i + (r *v fm) i - beam_v1 x i) as Q1 by lra.
  assert (- as_0 x * fm i = (t *v fm) i - (r *v fp) i + beam_v2 x i) as Q2 by lra.
  split; (eapply dl_eq; [apply dl_scal; apply dl_exp; apply dl_scal; apply dl_id|]).
  - transitivity (- as_0 x * fp i * exp (- as_0 x * s)); [ring|]. rewrite Q1. ring.
  - transitivity (- as_0 x * fm i * exp (- as_0 x * s)); [ring|]. rewrite Q2. ring.
Qed.
End Beam.

(** Thermal emission *)
Section Thermal.
Hypothesis Solve2 : solver (n + n) (solve (n + n)%nat).
Hypothesis LP : L <> 0.
Lemma wide_up : forall u i, (i < n)%nat -> mv (n + n) (ther_w n x) u i = qx x i * (- (t *v (upper u)) i + (r *v (lower n u)) i).
Proof.
  intros u i Hi. unfold mv. rewrite total_split. unfold ther_w, wide. destruct (Nat.ltb_spec i n); [|lia].
  transitivity (total n (fun k => (- qx x i) * (t i k * upper u k)) + total n (fun k => qx x i * (r i k * lower n u k))).
  - f_equal; apply total_ext; intros k Hk.
    + destruct (Nat.ltb_spec k n); [unfold upper; ring|lia].
    + destruct (Nat.ltb_spec (n + k) n); [lia|]. replace (n + k - n)%nat with k by lia. unfold lower. ring.
  - rewrite !total_scale. ring.
Qed.
Lemma wide_dn : forall u i, (i < n)%nat -> mv (n + n) (ther_w n x) u (n + i)%nat = qx x i * ((r *v (upper u)) i - (t *v (lower n u)) i).
Proof.
  intros u i Hi. unfold mv. rewrite total_split. unfold ther_w, wide. destruct (Nat.ltb_spec (n + i) n); [lia|].
  replace (n + i - n)%nat with i by lia.
  transitivity (total n (fun k => qx x i * (r i k * upper u k)) + total n (fun k => (- qx x i) * (t i k * lower n u k))).
  - f_equal; apply total_ext; intros k Hk.
    + destruct (Nat.ltb_spec k n); [unfold upper; ring|lia].
    + destruct (Nat.ltb_spec (n + k) n); [lia|]. replace (n + k - n)%nat with k by lia. unfold lower. ring.
  - rewrite !total_scale. ring.
Qed.
Lemma wide_nonsingular : nonsingular (n + n) (ther_w n x).
Proof.
  apply injective_nonsingular. intros v H. destruct txr_nonsingular as (NM & NP).
  assert (forall i, (i < n)%nat -> - (t *v (upper v)) i + (r *v (lower n v)) i = 0) as A.
  { intros i Hi. pose proof (H i ltac:(lia)) as E. rewrite wide_up in E by exact Hi. apply Rmult_integral in E. destruct E as [E|E]; [|exact E]. elim (Qx i Hi E). }
  assert (forall i, (i < n)%nat -> (r *v (upper v)) i - (t *v (lower n v)) i = 0) as B.
  { intros i Hi. pose proof (H (n + i)%nat ltac:(lia)) as E. rewrite wide_dn in E by exact Hi. apply Rmult_integral in E. destruct E as [E|E]; [|exact E]. elim (Qx i Hi E). }
  assert (forall i, (i < n)%nat -> upper v i - lower n v i = 0) as P.
  { apply (nonsingular_injective n tpr NP). intros i Hi. rewrite mv_minus, !tpr_mv. specialize (A i Hi). specialize (B i Hi). lra. }
  assert (forall i, (i < n)%nat -> upper v i + lower n v i = 0) as Q.
  { apply (nonsingular_injective n tmr NM). intros i Hi. rewrite mv_plus, !tmr_mv. specialize (A i Hi). specialize (B i Hi). lra. }
  intros i Hi. destruct (lt_dec i n) as [C|C].
  - specialize (P i C). specialize (Q i C). unfold upper in *. lra.
  - specialize (P (i - n)%nat ltac:(lia)). specialize (Q (i - n)%nat ltac:(lia)). unfold upper, lower in *. replace (n + (i - n))%nat with i in * by lia. lra.
Qed.
Notation a1 := (ther_a1 n solve x).
Notation a0 := (ther_a0 n solve x).
Lemma a1_eq : forall i, (i < n + n)%nat -> mv (n + n) (ther_w n x) a1 i = (1 - omega x) * slope x.
Proof. intros i Hi. exact (csolve_solves (n + n) (solve (n + n)%nat) _ _ i ltac:(lia) Solve2 wide_nonsingular Hi). Qed.
Lemma a0_eq : forall i, (i < n + n)%nat -> mv (n + n) (ther_w n x) a0 i = (1 - omega x) * planck0 x + signed n (qx x) a1 i.
Proof. intros i Hi. exact (csolve_solves (n + n) (solve (n + n)%nat) _ _ i ltac:(lia) Solve2 wide_nonsingular Hi). Qed.
Definition lin_p : beam := fun i s => upper a0 i + s * upper a1 i.
Definition lin_m : beam := fun i s => lower n a0 i + s * lower n a1 i.
Lemma thermal_solves :
  sys n t r (fun i s => (1 - omega x) * (planck0 x + (planck1 x - planck0 x) * s / L) / qx x i)
            (fun i s => (1 - omega x) * (planck0 x + (planck1 x - planck0 x) * s / L) / qx x i) L lin_p lin_m.
Proof.
  intros i s Hi _. unfold lin_p, lin_m. rewrite !mv_plus, !mv_scal.
  pose proof (Qx i Hi) as Q.
  pose proof (a1_eq i ltac:(lia)) as A1. pose proof (a0_eq i ltac:(lia)) as A0.
  pose proof (a1_eq (n + i)%nat ltac:(lia)) as B1. pose proof (a0_eq (n + i)%nat ltac:(lia)) as B0.
  rewrite wide_up in A1, A0 by exact Hi. rewrite wide_dn in B1, B0 by exact Hi.
  unfold signed in A0, B0. destruct (Nat.ltb_spec i n); [|lia]. destruct (Nat.ltb_spec (n + i) n); [lia|]. replace (n + i - n)%nat with i in B0 by lia.
  unfold slope in *. set (k := (planck1 x - planck0 x) / L) in *.
  assert ((1 - omega x) * (planck0 x + (planck1 x - planck0 x) * s / L) = (1 - omega x) * planck0 x + s * ((1 - omega x) * k)) as E by (unfold k; field; exact LP).
  rewrite E. fold (lower n a1 i) in B0. fold (upper a1 i) in A0. split.
  - eapply dl_eq; [apply dl_plus; [apply dl_const|]; apply dl_mult; [apply dl_id|apply dl_const]|].
    apply (Rmult_eq_reg_l (qx x i)); [|exact Q].
    transitivity (qx x i * (- (t *v upper a0) i + (r *v lower n a0) i) + s * (qx x i * (- (t *v upper a1) i + (r *v lower n a1) i)) - ((1 - omega x) * planck0 x + s * ((1 - omega x) * k))).
    + rewrite A1, A0. ring.
    + field. exact Q.
  - eapply dl_eq; [apply dl_plus; [apply dl_const|]; apply dl_mult; [apply dl_id|apply dl_const]|].
    apply (Rmult_eq_reg_l (qx x i)); [|exact Q].
    transitivity (- (qx x i * ((r *v upper a0) i - (t *v lower n a0) i)) - s * (qx x i * ((r *v upper a1) i - (t *v lower n a1) i)) + ((1 - omega x) * planck0 x + s * ((1 - omega x) * k))).
    + rewrite B1, B0. ring.
    + field. exact Q.
Qed.
End Thermal.

(** The particular solution *)
Variables (solar thermal : bool).
Hypothesis Solar : solar = true -> as_0 x <> 0 /\ nonsingular n (beam_f n x) /\ atran x = exp (- as_0 x * L).
Hypothesis Thermal : thermal = true -> solver (n + n) (solve (n + n)%nat) /\ L <> 0.
Definition part_p : beam := fun i s => (if solar then btran x * (Fs_p n solve x i * exp (- as_0 x * s)) else 0) + (if thermal then lin_p i s else 0).
Definition part_m : beam := fun i s => (if solar then btran x * (Fs_m n solve x i * exp (- as_0 x * s)) else 0) + (if thermal then lin_m i s else 0).
Notation Jp := (source solar thermal (omega x) (flux0 x) (btran x) (as_0 x) (planck0 x) (planck1 x) L (Q_pm x)).
Notation Jm := (source solar thermal (omega x) (flux0 x) (btran x) (as_0 x) (planck0 x) (planck1 x) L (Q_mm x)).
Lemma part_solves : sys n t r (fun i s => Jp i s / qx x i) (fun i s => Jm i s / qx x i) L part_p part_m.
Proof.
  apply (sys_ext (fun i s => (if solar then btran x * (beam_v1 x i * exp (- as_0 x * s)) else 0) +
                             (if thermal then (1 - omega x) * (planck0 x + (planck1 x - planck0 x) * s / L) / qx x i else 0))
                 (fun i s => (if solar then btran x * (beam_v2 x i * exp (- as_0 x * s)) else 0) +
                             (if thermal then (1 - omega x) * (planck0 x + (planck1 x - planck0 x) * s / L) / qx x i else 0))).
  - unfold part_p, part_m. apply sys_plus.
    + destruct solar; [|exact sys_zero]. destruct (Solar eq_refl) as (A & B & _). apply sys_scal. apply beam_solves; assumption.
    + destruct thermal; [|exact sys_zero]. destruct (Thermal eq_refl) as (A & B). apply thermal_solves; assumption.
  - intros i s Hi _. pose proof (Qx i Hi). unfold source, beam_v1, beam_v2. destruct solar, thermal; split; unfold Rdiv; ring.
Qed.
Notation lay := (eig_layer n solve eig solar thermal x).
Lemma part_top : forall i, (i < n)%nat -> Sp lay i = part_p i 0 - (T_ *v (fun k => part_p k L)) i - (R_ *v (fun k => part_m k 0)) i.
Proof.
  intros i Hi. cbn [eig_layer Sp]. unfold part_p, part_m. rewrite !mv_plus.
  assert (exp (- as_0 x * 0) = 1) as E0 by (rewrite Rmult_0_r; apply exp_0). rewrite E0.
  assert ((if solar then vscale (btran x) (S_p n solve eig x) else zvec) i =
    (if solar then btran x * (Fs_p n solve x i * 1) else 0) - (T_ *v (fun k => if solar then btran x * (Fs_p n solve x k * exp (- as_0 x * L)) else 0)) i
    - (R_ *v (fun k => if solar then btran x * (Fs_m n solve x k * 1) else 0)) i) as A.
  { destruct solar; [|rewrite !mv_zero by reflexivity; unfold zvec; ring]. destruct (Solar eq_refl) as (_ & _ & E). rewrite <- E.
    rewrite (mv_ext n T_ _ (fun k => btran x * atran x * Fs_p n solve x k)) by (intros; ring).
    rewrite (mv_ext n R_ _ (fun k => btran x * Fs_m n solve x k)) by (intros; ring).
    rewrite !mv_scal. unfold S_p, vscale, vless. ring. }
  assert ((if thermal then EigModel.Sl_p n solve eig x else zvec) i =
    (if thermal then lin_p i 0 else 0) - (T_ *v (fun k => if thermal then lin_p k L else 0)) i - (R_ *v (fun k => if thermal then lin_m k 0 else 0)) i) as B.
  { destruct thermal; [|rewrite !mv_zero by reflexivity; unfold zvec; ring].
    unfold Sl_p, vless. unfold F0_p, F1_p, F0_m, lin_p, lin_m, vadd, vscale.
    rewrite (mv_ext n R_ (fun k => lower n (ther_a0 n solve x) k + 0 * _) (lower n (ther_a0 n solve x))) by (intros; ring). ring. }
  unfold scale_add. destruct thermal; unfold vadd, zvec in *; lra.
Qed.
Lemma part_bottom : forall i, (i < n)%nat -> Sm lay i = part_m i L - (R_ *v (fun k => part_p k L)) i - (T_ *v (fun k => part_m k 0)) i.
Proof.
  intros i Hi. cbn [eig_layer Sm]. unfold part_p, part_m. rewrite !mv_plus.
  assert (exp (- as_0 x * 0) = 1) as E0 by (rewrite Rmult_0_r; apply exp_0). rewrite E0.
  assert ((if solar then vscale (btran x) (S_m n solve eig x) else zvec) i =
    (if solar then btran x * (Fs_m n solve x i * exp (- as_0 x * L)) else 0) - (R_ *v (fun k => if solar then btran x * (Fs_p n solve x k * exp (- as_0 x * L)) else 0)) i
    - (T_ *v (fun k => if solar then btran x * (Fs_m n solve x k * 1) else 0)) i) as A.
  { destruct solar; [|rewrite !mv_zero by reflexivity; unfold zvec; ring]. destruct (Solar eq_refl) as (_ & _ & E). rewrite <- E.
    rewrite (mv_ext n R_ _ (fun k => btran x * atran x * Fs_p n solve x k)) by (intros; ring).
    rewrite (mv_ext n T_ _ (fun k => btran x * Fs_m n solve x k)) by (intros; ring).
    rewrite !mv_scal. unfold S_m, vscale, vless. ring. }
  assert ((if thermal then EigModel.Sl_m n solve eig x else zvec) i =
    (if thermal then lin_m i L else 0) - (R_ *v (fun k => if thermal then lin_p k L else 0)) i - (T_ *v (fun k => if thermal then lin_m k 0 else 0)) i) as B.
  { destruct thermal; [|rewrite !mv_zero by reflexivity; unfold zvec; ring].
    unfold Sl_m, vless. unfold F1_m, F1_p, F0_m, lin_p, lin_m, vadd, vscale.
    rewrite (mv_ext n T_ (fun k => lower n (ther_a0 n solve x) k + 0 * _) (lower n (ther_a0 n solve x))) by (intros; ring). ring. }
  unfold scale_add. destruct thermal; unfold vadd, zvec in *; lra.
Qed.
Hypothesis LP : 0 <= L.
Lemma eig_layer_exact : forall down1 up2 up1 down2,
  interacts n lay down1 up2 up1 down2 <->
  exists Ip Im, transfers n (qx x) (qw x) cc (P_pp x) (P_mp x) Jp Jm L Ip Im /\ ends n L Ip Im down1 up2 up1 down2.
Proof.
  intros d1 u2 u1 d2. split.
  - intros H. destruct (hom_any (fun k => d1 k - part_m k 0) (fun k => u2 k - part_p k L)) as (al & be & B).
    exists (fun i s => hom_p al be i s + part_p i s), (fun i s => hom_m al be i s + part_m i s). split.
    + apply sys_transfers. apply (sys_ext (fun i s => 0 + Jp i s / qx x i) (fun i s => 0 + Jm i s / qx x i)).
      * apply sys_plus; [apply hom_solves|apply part_solves].
      * intros; split; ring.
    + intros i Hi. destruct (B i Hi) as (B0 & BL). destruct (H i Hi) as (U1 & D2). destruct (global_exact al be i Hi) as (G1 & G2).
      rewrite (mv_ext n R_ _ (fun k => d1 k - part_m k 0)) in G1 by (intros; apply B; assumption).
      rewrite (mv_ext n T_ _ (fun k => u2 k - part_p k L)) in G1 by (intros; apply B; assumption).
      rewrite (mv_ext n T_ _ (fun k => d1 k - part_m k 0)) in G2 by (intros; apply B; assumption).
      rewrite (mv_ext n R_ _ (fun k => u2 k - part_p k L)) in G2 by (intros; apply B; assumption).
      rewrite !mv_minus in G1, G2. rewrite part_top in U1 by exact Hi. rewrite part_bottom in D2 by exact Hi.
      cbn [eig_layer Rm Rp Tm Tp] in U1, D2. unfold dot in U1, D2. unfold mv in *.
      refine (conj _ (conj _ (conj _ _))); lra.
  - intros (Ip & Im & H & E) i Hi. apply sys_transfers in H.
    destruct (hom_all (fun i s => Ip i s + - (1) * part_p i s) (fun i s => Im i s + - (1) * part_m i s) LP) as (al & be & B).
    { eapply sys_ext; [apply sys_plus; [exact H|apply sys_scal; exact part_solves]|]. intros; cbv beta; split; ring. }
    destruct (global_exact al be i Hi) as (G1 & G2).
    assert (0 <= 0 <= L) as L0 by lra. assert (0 <= L <= L) as LL by lra.
    rewrite <- (proj1 (B i 0 Hi L0)) in G1. rewrite <- (proj2 (B i L Hi LL)) in G2.
    rewrite (mv_ext n R_ _ (fun k => d1 k + - (1) * part_m k 0)) in G1 by (intros k Hk; rewrite <- (proj2 (B k 0 Hk L0)); rewrite (proj1 (E k Hk)); reflexivity).
    rewrite (mv_ext n T_ _ (fun k => u2 k + - (1) * part_p k L)) in G1 by (intros k Hk; rewrite <- (proj1 (B k L Hk LL)); rewrite (proj1 (proj2 (E k Hk))); reflexivity).
    rewrite (mv_ext n T_ _ (fun k => d1 k + - (1) * part_m k 0)) in G2 by (intros k Hk; rewrite <- (proj2 (B k 0 Hk L0)); rewrite (proj1 (E k Hk)); reflexivity).
    rewrite (mv_ext n R_ _ (fun k => u2 k + - (1) * part_p k L)) in G2 by (intros k Hk; rewrite <- (proj1 (B k L Hk LL)); rewrite (proj1 (proj2 (E k Hk))); reflexivity).
    rewrite !mv_plus, !mv_scal in G1, G2.
    destruct (E i Hi) as (_ & _ & E3 & E4). rewrite E3 in G1. rewrite E4 in G2.
    rewrite part_top, part_bottom by exact Hi. cbn [eig_layer Rm Rp Tm Tp]. unfold dot. unfold mv in *. split; lra.
Qed.
End Layer.
