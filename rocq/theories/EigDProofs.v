(** The derivatives of the eigenvalue solver are exact, given a differentiable eigensystem. *)
From Coq Require Import Reals Bool Arith Lia Lra Setoid Morphisms.
From Verif Require Import Base DeltaMSpec DeltaMProofs BeamProofs AddingModel AddingSpec AddingMat AddingDeriv AddingCalls RadianceModel RadianceProofs SingleProofs
  EigModel EigSpec EigMat EigCore EigProofs EigEnergy EigLayer EigDModel EigDSpec.
From Verif Require AddingAdjLoops.
Open Scope R_scope.

Lemma here : forall p P, around p P -> P p.
Proof. intros p P (e & E & H). apply H. rewrite Rminus_diag_eq by reflexivity. rewrite Rabs_R0. exact E. Qed.
Lemma eq_around : forall f g p l, around p (fun t => f t = g t) -> derivable_pt_lim f p l -> derivable_pt_lim g p l.
Proof. exact AddingAdjLoops.around_ext. Qed.

(** * Rules *)
Section Rules.
Variable n : nat.
Notation "a ** b" := (mmul n a b) (at level 40, left associativity).
Notation "a =~ b" := (meq n a b) (at level 70).
Notation "a *v v" := (mv n a v) (at level 40, left associativity).
Lemma md_less : forall f g p a b, mderiv n f p a -> mderiv n g p b -> mderiv n (fun s => less (f s) (g s)) p (less a b).
Proof. intros f g p a b F G i j Hi Hj. apply dl_minus; [apply F|apply G]; assumption. Qed.
Lemma md_scaled : forall f p a c, mderiv n f p a -> mderiv n (fun s => scaled c (f s)) p (scaled c a).
Proof. intros f p a c F i j Hi Hj. apply dl_scal. apply F; assumption. Qed.
Lemma md_diag : forall f (v : R -> vec) p a v', mderiv n f p a -> vderiv n v p v' -> mderiv n (fun s => mul_diag (f s) (v s)) p (madd (mul_diag a (v p)) (mul_diag (f p) v')).
Proof. intros f v p a v' F V i j Hi Hj. apply (dl_mult (fun s => f s i j) (fun s => v s j)); [apply F|apply V]; assumption. Qed.
Lemma md_dinv : forall f (v : R -> vec) p a v', mderiv n f p a -> vderiv n v p v' -> (forall k, (k < n)%nat -> v p k <> 0) ->
  mderiv n (fun s => mul_dinv (f s) (v s)) p (mul_dinv (less a (mul_diag (mul_dinv (f p) (v p)) v')) (v p)).
Proof.
  intros f v p a v' F V NZ i j Hi Hj. eapply dl_eq; [apply (dl_div (fun s => f s i j) (fun s => v s j)); [apply F; assumption|apply V; assumption|apply NZ; assumption]|].
  unfold mul_dinv, less, mul_diag, Rsqr. field. apply NZ; assumption.
Qed.
Lemma vd_less : forall f g p a b, vderiv n f p a -> vderiv n g p b -> vderiv n (fun s => vless (f s) (g s)) p (vless a b).
Proof. intros f g p a b F G i Hi. apply dl_minus; [apply F|apply G]; assumption. Qed.
Lemma vd_scale : forall (c : R -> R) f p c' a, derivable_pt_lim c p c' -> vderiv n f p a -> vderiv n (fun s => vscale (c s) (f s)) p (vadd (vscale c' (f p)) (vscale (c p) a)).
Proof. intros c f p c' a C F i Hi. apply (dl_mult c (fun s => f s i)); [exact C|apply F; assumption]. Qed.
Lemma vd_const : forall (v : vec) p, vderiv n (fun _ => v) p zvec.
Proof. intros v p i _. apply dl_const. Qed.
Lemma md_around : forall f g p a, around p (fun s => f s =~ g s) -> mderiv n f p a -> mderiv n g p a.
Proof.
  intros f g p a A D i j Hi Hj. eapply eq_around; [|apply (D i j Hi Hj)]. revert A. apply around_imp. intros s H. apply H; assumption.
Qed.
Lemma vd_around : forall f g p a, around p (fun s => veq n (f s) (g s)) -> vderiv n f p a -> vderiv n g p a.
Proof.
  intros f g p a A D i Hi. eapply eq_around; [|apply (D i Hi)]. revert A. apply around_imp. intros s H. apply H; assumption.
Qed.
Lemma md_solve : forall sol m g p m' g', solver n sol -> nonsingular n (m p) -> mderiv n m p m' -> mderiv n g p g' ->
  mderiv n (fun s => sol (m s) (g s)) p (sol (m p) (less g' (sol (m p) (g p) ** m'))).
Proof.
  intros sol m g p m' g' C (q & Q1 & Q2) M G. eapply mderiv_ext; [symmetry; apply (solve_mul n sol (m p) q); [exact C|exact Q1|exact Q2]|].
  exact (solve_deriv n sol C m g p q m' g' Q1 Q2 M G).
Qed.
Lemma csolve_ext : forall sol m u v, solver n sol -> (0 < n)%nat -> nonsingular n m -> veq n u v -> veq n (csolve sol m u) (csolve sol m v).
Proof.
  intros sol m u v C P (q & Q1 & Q2) H i Hi. rewrite (csolve_inverse n sol C P m q u Q1 Q2 i Hi), (csolve_inverse n sol C P m q v Q1 Q2 i Hi). apply mv_ext. exact H.
Qed.
Lemma vd_csolve : forall sol w v p w' v' r, solver n sol -> (0 < n)%nat -> nonsingular n (w p) -> mderiv n w p w' -> vderiv n v p v' ->
  (forall i, (i < n)%nat -> v' i - (w' *v csolve sol (w p) (v p)) i = r i) -> vderiv n (fun s => csolve sol (w s) (v s)) p (csolve sol (w p) r).
Proof.
  intros sol w v p w' v' r C P (q & Q1 & Q2) W V E. eapply vderiv_ext; [|exact (csolve_deriv n sol C P w v p q w' v' Q1 Q2 W V)].
  intros i Hi. rewrite (csolve_inverse n sol C P (w p) q r Q1 Q2 i Hi). apply mv_ext. exact E.
Qed.
End Rules.

(** * Reflection and transmission *)
Section Smooth.
Variable n : nat.
Variable solve : nat -> mat -> mat -> mat.
Variable eig : mat -> vec * mat.
Notation "a ** b" := (mmul n a b) (at level 40, left associativity).
Notation "a =~ b" := (meq n a b) (at level 70).
Notation "a *v v" := (mv n a v) (at level 40, left associativity).
Hypothesis Pos : (0 < n)%nat.
Hypothesis Solve1 : solver n (solve n).
Variables (X : R -> slab) (p : R) (dx : slab).
Notation x := (X p).
Hypothesis Fixed : forall s, qx (X s) = qx x /\ qw (X s) = qw x /\ zeroth (X s) = zeroth x /\ flux0 (X s) = flux0 x.
Hypothesis D_omega : derivable_pt_lim (fun s => omega (X s)) p (omega dx).
Hypothesis D_ltau : derivable_pt_lim (fun s => ltau (X s)) p (ltau dx).
Hypothesis D_pp : mderiv n (fun s => P_pp (X s)) p (P_pp dx).
Hypothesis D_mp : mderiv n (fun s => P_mp (X s)) p (P_mp dx).
Hypothesis Qx : forall i, (i < n)%nat -> qx x i <> 0.

Lemma d_local : forall (P : R -> mat) P' a, mderiv n P p P' -> mderiv n (fun s => local_mat (X s) a (P s)) p (local_mat_l x dx a (P p) P').
Proof.
  intros P P' a D i j Hi Hj. unfold local_mat, local_mat_l, factor, inv_qx, scaled, mul_diag, diag_mul, madd.
  destruct (Fixed p) as (_ & _ & _ & _).
  apply (eq_around (fun s => a * (1 + (if zeroth x then 1 else 0)) / 4 * omega (X s) * (1 / qx x i * P s i j * qw x j))).
  { apply around_true. intros s. destruct (Fixed s) as (-> & -> & -> & _). reflexivity. }
  eapply dl_eq; [apply dl_mult; [apply dl_scal; exact D_omega|]|].
  - apply (dl_mult (fun s => 1 / qx x i * P s i j) (fun _ => qw x j)); [apply dl_scal; apply D; assumption|apply dl_const].
  - cbv beta. field. exact (Qx i Hi).
Qed.
Lemma d_local_r : mderiv n (fun s => local_r (X s)) p (local_r_l x dx).
Proof. apply d_local. exact D_mp. Qed.
Lemma d_local_t : mderiv n (fun s => local_t (X s)) p (local_t_l x dx).
Proof.
  intros i j Hi Hj. unfold local_t.
  apply (eq_around (fun s => local_mat (X s) 1 (P_pp (X s)) i j - (if Nat.eqb i j then inv_qx x i else 0))).
  { apply around_true. intros s. unfold inv_qx. destruct (Fixed s) as (-> & _). reflexivity. }
  eapply dl_eq; [apply dl_minus; [apply (d_local (fun s => P_pp (X s)) _ 1 D_pp); assumption|apply dl_const]|]. unfold local_t_l. ring.
Qed.
Lemma d_tpr : mderiv n (fun s => t_plus_r (X s)) p (t_plus_r_l x dx).
Proof. apply mderiv_add; [exact d_local_t|exact d_local_r]. Qed.
Lemma d_tmr : mderiv n (fun s => t_minus_r (X s)) p (t_minus_r_l x dx).
Proof. apply md_less; [exact d_local_t|exact d_local_r]. Qed.
Lemma d_gam : mderiv n (fun s => gam n (X s)) p (gam_l n x dx).
Proof.
  eapply mderiv_ext; [|apply mderiv_mul; [exact d_tmr|exact d_tpr]]. intros i j _ _. unfold gam_l, madd. ring.
Qed.

Variables (e : R -> vec * mat) (lam' : vec) (v' : mat).
Hypothesis Path : eigenpath n (fun s => gam n (X s)) p e lam' v'.
Hypothesis Here : e p = eig (gam n x).
Hypothesis Ev : forall k, (k < n)%nat -> 0 < evals n eig x k.
Hypothesis Dist : distinct n (evals n eig x).
(** A trivial eigenvector is that of a direction without weight *)
Hypothesis Triv : forall k, (k < n)%nat -> trivial n eig x k = true -> exists i, (i < n)%nat /\ qw x i = 0 /\ forall j, (j < n)%nat -> j <> i -> evecs n eig x j k = 0.
Hypothesis SolveS : solver (S n) (solve (S n)).
Notation E s := (fun _ : mat => e s).
Notation V := (evecs n eig x).
Notation lam := (evals n eig x).
Lemma esys : eigensystem n (gam n x) (eig (gam n x)).
Proof. rewrite <- Here. exact (here _ _ (proj1 Path)). Qed.

Lemma d_eq : forall k i, (k < n)%nat -> (i < n)%nat -> (gam_l n x dx *v (fun j => V j k)) i + (gam n x *v (fun j => v' j k)) i = lam' k * V i k + lam k * v' i k.
Proof.
  intros k i Hk Hi. destruct Path as (ES & DL & DV & _).
  assert (derivable_pt_lim (fun s => total n (fun j => gam n (X s) i j * snd (e s) j k)) p
     ((gam_l n x dx *v (fun j => V j k)) i + (gam n x *v (fun j => v' j k)) i)) as A.
  { eapply dl_eq; [apply (dl_total n (fun j s => gam n (X s) i j * snd (e s) j k)); intros j Hj; apply (dl_mult (fun s => gam n (X s) i j) (fun s => snd (e s) j k)); [apply d_gam; assumption|apply DV; assumption]|].
    cbv beta. rewrite total_plus. unfold mv, evecs. rewrite Here. reflexivity. }
  assert (derivable_pt_lim (fun s => fst (e s) k * snd (e s) i k) p (lam' k * V i k + lam k * v' i k)) as B.
  { eapply dl_eq; [apply (dl_mult (fun s => fst (e s) k) (fun s => snd (e s) i k)); [apply DL; assumption|apply DV; assumption]|].
    unfold evecs, evals. rewrite Here. reflexivity. }
  eapply uniqueness_limite; [exact A|]. eapply eq_around; [|exact B]. revert ES. apply around_imp. intros s (_ & Q). symmetry. apply Q; assumption.
Qed.
Lemma d_norm : forall k, (k < n)%nat -> total n (fun j => V j k * v' j k) = 0.
Proof.
  intros k Hk. destruct Path as (_ & _ & DV & N).
  assert (derivable_pt_lim (fun s => total n (fun j => snd (e s) j k * snd (e s) j k)) p (2 * total n (fun j => V j k * v' j k))) as A.
  { eapply dl_eq; [apply (dl_total n (fun j s => snd (e s) j k * snd (e s) j k)); intros j Hj; apply (dl_mult (fun s => snd (e s) j k) (fun s => snd (e s) j k)); apply DV; assumption|].
    cbv beta. rewrite <- total_scale. apply total_ext. intros j Hj. unfold evecs. rewrite <- Here. ring. }
  assert (derivable_pt_lim (fun s => total n (fun j => snd (e s) j k * snd (e s) j k)) p 0) as B.
  { eapply eq_around; [|apply (dl_const (total n (fun j => snd (e p) j k * snd (e p) j k)))]. revert N. apply around_imp. intros s Q. symmetry. apply Q, Hk. }
  pose proof (uniqueness_limite _ _ _ _ A B). lra.
Qed.
(** The system for the derivatives of one eigenvector has one solution *)
Lemma bordered_up : forall k z i, (i < n)%nat -> mv (S n) (bordered n eig x k) z i =
  sqrt (lam k) * 2 * V i k * z 0%nat + lam k * z (S i) - (gam n x *v (fun j => z (S j))) i.
Proof.
  intros k z i Hi. unfold mv at 1. rewrite (total_skip n 0 _ ltac:(lia)).
  assert (Nat.eqb i n = false) as NE by (apply Nat.eqb_neq; lia). unfold bordered. rewrite NE.
  rewrite (total_ext n _ (fun j => (if Nat.eqb i j then lam k * z (S j) else 0) + - (1) * (gam n x i j * z (S j)))).
  - rewrite total_plus, total_scale, (total_pick n i (fun j => lam k * z (S j)) Hi). unfold mv. ring.
  - intros j Hj. replace (skip 0 j) with (S j) by (unfold skip; destruct (Nat.ltb j 0) eqn:Q; [apply Nat.ltb_lt in Q; lia|reflexivity]).
    destruct (Nat.eqb i j); ring.
Qed.
Lemma bordered_dn : forall k z, mv (S n) (bordered n eig x k) z n = total n (fun j => V j k * z (S j)).
Proof.
  intros k z. unfold mv. rewrite (total_skip n 0 _ ltac:(lia)). unfold bordered. rewrite Nat.eqb_refl. rewrite Rmult_0_l, Rplus_0_l.
  apply total_ext. intros j Hj. replace (skip 0 j) with (S j) by (unfold skip; destruct (Nat.ltb j 0) eqn:Q; [apply Nat.ltb_lt in Q; lia|reflexivity]). reflexivity.
Qed.
Lemma column_nonzero : forall k, (k < n)%nat -> total n (fun j => V j k * V j k) <> 0.
Proof.
  intros k Hk Z. assert (forall j, (j < n)%nat -> V j k = 0) as A.
  { intros j Hj. assert (V j k * V j k = 0) as Q; [|apply Rmult_integral in Q; lra].
    apply (total_pos_zero n (fun j => V j k * V j k)); [intros; apply Rle_0_sqr|lra|exact Hj]. }
  pose proof (nonsingular_injective n V (proj1 esys) (fun j => ident j k)) as Q.
  assert (ident k k = 0) as C; [|unfold ident in C; rewrite Nat.eqb_refl in C; lra].
  refine (Q _ k Hk). intros i Hi. transitivity (V i k); [exact (mmul_1_r n V i k Hi Hk)|apply A; exact Hi].
Qed.
Lemma bordered_nonsingular : forall k, (k < n)%nat -> nonsingular (S n) (bordered n eig x k).
Proof.
  intros k Hk. apply injective_nonsingular. intros z Z.
  destruct esys as (VN & VE).
  set (u := fun j => z (S j)).
  destruct (onto n V (nonsingular_injective n V VN) u) as (c & C).
  assert (forall i, (i < n)%nat -> (gam n x *v u) i = (V *v (fun l => lam l * c l)) i) as G.
  { intros i Hi. rewrite <- (mv_ext n (gam n x) (V *v c) u i C). rewrite mv_mul. unfold mv. apply total_ext. intros l Hl. 
    assert ((gam n x ** V) i l = lam l * V i l) as Q by exact (VE i l Hi Hl). rewrite Q. ring. }
  assert (forall l, (l < n)%nat -> (if Nat.eqb l k then sqrt (lam k) * 2 * z 0%nat else 0) + (lam k - lam l) * c l = 0) as A.
  { apply (nonsingular_injective n V VN). intros i Hi. pose proof (Z i ltac:(lia)) as Zi. rewrite bordered_up in Zi by exact Hi.
    change (fun j => z (S j)) with u in Zi. rewrite G in Zi by exact Hi. change (z (S i)) with (u i) in Zi. rewrite <- (C i Hi) in Zi.
    rewrite mv_plus.
    assert ((V *v (fun l => if Nat.eqb l k then sqrt (lam k) * 2 * z 0%nat else 0)) i = sqrt (lam k) * 2 * V i k * z 0%nat) as P1.
    { unfold mv. rewrite (total_ext n _ (fun l => if Nat.eqb k l then V i l * (sqrt (lam k) * 2 * z 0%nat) else 0)).
      - rewrite (total_pick n k (fun l => V i l * (sqrt (lam k) * 2 * z 0%nat)) Hk). ring.
      - intros l _. rewrite (Nat.eqb_sym l k). destruct (Nat.eqb k l); ring. }
    rewrite P1. rewrite (mv_ext n V (fun l => (lam k - lam l) * c l) (fun l => lam k * c l - lam l * c l)) by (intros; ring).
    rewrite mv_minus, mv_scal. lra. }
  assert (forall l, (l < n)%nat -> l <> k -> c l = 0) as C0.
  { intros l Hl NE. pose proof (A l Hl) as Q. apply Nat.eqb_neq in NE. rewrite NE, Rplus_0_l in Q. apply Nat.eqb_neq in NE.
    apply Rmult_integral in Q. destruct Q as [Q|Q]; [|exact Q]. exfalso. apply (Dist k l Hk Hl ltac:(auto)). lra. }
  assert (z 0%nat = 0) as Z0.
  { pose proof (A k Hk) as Q. rewrite Nat.eqb_refl in Q. pose proof (sqrt_lt_R0 _ (Ev k Hk)).
    assert (sqrt (lam k) * 2 * z 0%nat = 0) as Q' by lra. apply Rmult_integral in Q'. lra. }
  assert (forall i, (i < n)%nat -> u i = V i k * c k) as U.
  { intros i Hi. rewrite <- (C i Hi). unfold mv. rewrite (total_ext n _ (fun l => if Nat.eqb k l then V i l * c l else 0)).
    - exact (total_pick n k (fun l => V i l * c l) Hk).
    - intros l Hl. destruct (Nat.eqb k l) eqn:Q; [reflexivity|]. apply Nat.eqb_neq in Q. rewrite (C0 l Hl ltac:(auto)). ring. }
  assert (c k = 0) as CK.
  { pose proof (Z n ltac:(lia)) as Q. rewrite bordered_dn in Q. 
    rewrite (total_ext n _ (fun j => c k * (V j k * V j k))) in Q by (intros j Hj; change (z (S j)) with (u j); rewrite (U j Hj); ring).
    rewrite total_scale in Q. apply Rmult_integral in Q. destruct Q as [Q|Q]; [exact Q|]. contradiction (column_nonzero k Hk Q). }
  intros i Hi. destruct i as [|i]; [exact Z0|]. change (z (S i)) with (u i). rewrite U by lia. rewrite CK. ring.
Qed.
Lemma solves_bordered : forall k z, (k < n)%nat -> (forall i, (i < S n)%nat -> mv (S n) (bordered n eig x k) z i = eig_B n eig x dx k i) ->
  forall i, (i < S n)%nat -> eig_z n solve eig x dx k i = z i.
Proof.
  intros k z Hk H i Hi. destruct (bordered_nonsingular k Hk) as (q & Q1 & Q2).
  unfold eig_z. rewrite (csolve_inverse (S n) (solve (S n)) SolveS (Nat.lt_0_succ n) (bordered n eig x k) q _ Q1 Q2 i Hi).
  rewrite <- (mv_ext (S n) q (mv (S n) (bordered n eig x k) z) (eig_B n eig x dx k) i H).
  rewrite mv_mul. rewrite (mv_mext (S n) (mmul (S n) q (bordered n eig x k)) ident z i Hi Q2). apply mv_ident. exact Hi.
Qed.
Lemma trivial_still : forall k, (k < n)%nat -> trivial n eig x k = true -> forall i, (i < n)%nat -> (gam_l n x dx *v (fun j => V j k)) i = 0.
Proof.
  intros k Hk T. destruct (Triv k Hk T) as (a & Ha & Wa & Z).
  assert (forall m i, (forall i j, (j < n)%nat -> qw x j = 0 -> m i j = 0) -> (m *v (fun j => V j k)) i = 0) as K.
  { intros m i M. unfold mv. apply total_zero. intros j Hj. destruct (Nat.eq_dec j a) as [->|NE]; [rewrite (M i a Ha Wa); ring|]. rewrite (Z j Hj NE). ring. }
  assert (forall i j, (j < n)%nat -> qw x j = 0 -> t_plus_r_l x dx i j = 0 /\ t_minus_r_l x dx i j = 0) as TL.
  { intros i j Hj W. unfold t_plus_r_l, t_minus_r_l, madd, less, local_t_l, local_r_l, local_mat_l, mul_diag. rewrite W. split; ring. }
  intros i Hi. unfold gam_l. rewrite mv_madd, <- !mv_mul.
  rewrite (mv_zero n (t_minus_r x) (t_plus_r_l x dx *v (fun j => V j k))) by (intros; apply K; intros; apply TL; assumption).
  rewrite Rplus_0_l. 
  assert (forall j, (j < n)%nat -> (t_plus_r x *v (fun j => V j k)) j = - / qx x j * V j k) as TP.
  { intros j Hj. unfold mv. rewrite (total_ext n _ (fun l => if Nat.eqb j l then - / qx x j * V l k else 0)).
    - exact (total_pick n j (fun l => - / qx x j * V l k) Hj).
    - intros l Hl. destruct (Nat.eq_dec l a) as [->|NE]; [|rewrite (Z l Hl NE); destruct (Nat.eqb j l); ring].
      unfold t_plus_r, madd, local_t, local_r, local_mat, scaled, mul_diag, inv_qx. rewrite Wa. destruct (Nat.eqb j a); unfold Rdiv; ring. }
  unfold mv at 1. apply total_zero. intros j Hj. rewrite (TP j Hj).
  destruct (Nat.eq_dec j a) as [->|NE]; [rewrite (proj2 (TL i a Ha Wa)); ring|]. rewrite (Z j Hj NE). ring.
Qed.
Lemma eig_z_is : forall k, (k < n)%nat -> eig_z n solve eig x dx k 0%nat = lam' k / (2 * sqrt (lam k)) /\ forall i, (i < n)%nat -> eig_z n solve eig x dx k (S i) = v' i k.
Proof.
  intros k Hk. pose proof (sqrt_lt_R0 _ (Ev k Hk)) as SP.
  set (z := fun i => match i with O => lam' k / (2 * sqrt (lam k)) | S j => v' j k end).
  assert (forall i, (i < S n)%nat -> eig_z n solve eig x dx k i = z i) as A.
  { apply solves_bordered; [exact Hk|]. intros i Hi. destruct (Nat.eq_dec i n) as [->|NE].
    - rewrite bordered_dn. unfold eig_B. rewrite Nat.eqb_refl. exact (d_norm k Hk).
    - rewrite bordered_up by lia. unfold eig_B. apply Nat.eqb_neq in NE. rewrite NE. apply Nat.eqb_neq in NE.
      pose proof (d_eq k i Hk ltac:(lia)) as Q. cbn [z]. 
      replace (sqrt (lam k) * 2 * V i k * (lam' k / (2 * sqrt (lam k)))) with (lam' k * V i k) by (field; lra). lra. }
  split; [exact (A 0%nat ltac:(lia))|]. intros i Hi. exact (A (S i) ltac:(lia)).
Qed.
Lemma eig_z_still : forall k, (k < n)%nat -> trivial n eig x k = true -> forall i, (i < S n)%nat -> eig_z n solve eig x dx k i = 0.
Proof.
  intros k Hk T i Hi. apply (solves_bordered k (fun _ => 0) Hk); [|exact Hi].
  intros j Hj. rewrite mv_zero by reflexivity. unfold eig_B. destruct (Nat.eqb j n) eqn:Q; [reflexivity|].
  apply Nat.eqb_neq in Q. symmetry. apply trivial_still; [exact Hk|exact T|lia].
Qed.
Lemma nu_l_is : forall k, (k < n)%nat -> nu_l n solve eig x dx k = lam' k / (2 * sqrt (lam k)).
Proof.
  intros k Hk. unfold nu_l. destruct (trivial n eig x k) eqn:T; [|apply eig_z_is; exact Hk].
  rewrite <- (proj1 (eig_z_is k Hk)). symmetry. apply eig_z_still; [exact Hk|exact T|lia].
Qed.
Lemma evecs_l_is : evecs_l n solve eig x dx =~ v'.
Proof.
  intros i k Hi Hk. unfold evecs_l. destruct (trivial n eig x k) eqn:T; [|apply eig_z_is; assumption].
  rewrite <- (proj2 (eig_z_is k Hk) i Hi). symmetry. apply eig_z_still; [exact Hk|exact T|lia].
Qed.
Lemma d_evecs : mderiv n (fun s => evecs n (E s) (X s)) p (evecs_l n solve eig x dx).
Proof. eapply mderiv_ext; [symmetry; exact evecs_l_is|]. exact (proj1 (proj2 (proj2 Path))). Qed.
Lemma d_nu : vderiv n (fun s => nu n (E s) (X s)) p (nu_l n solve eig x dx).
Proof.
  intros k Hk. rewrite nu_l_is by exact Hk. unfold nu, evals. pose proof (proj1 (proj2 Path) k Hk) as D. pose proof (Ev k Hk) as P. unfold evals in P. rewrite <- Here in P.
  apply (eq_around (fun s => sqrt (fst (e s) k))).
  - assert (continuity_pt (fun s => fst (e s) k) p) as C. { apply derivable_continuous_pt. exists (lam' k). exact D. }
    destruct (C (fst (e p) k) P) as (d & Dp & H). exists d. split; [exact Dp|]. intros s Hs.
    destruct (Req_dec s p) as [->|NE]; [rewrite Rabs_right by lra; reflexivity|].
    assert (Rabs (fst (e s) k - fst (e p) k) < fst (e p) k) as Q.
    { apply (H s). split; [split; [exact I|auto]|exact Hs]. }
    apply Rabs_def2 in Q. rewrite Rabs_right by lra. reflexivity.
  - eapply dl_eq; [apply (derivable_pt_lim_comp (fun s => fst (e s) k) sqrt); [exact D|apply derivable_pt_lim_sqrt; exact P]|].
    unfold evals. rewrite <- Here. pose proof (sqrt_lt_R0 _ P). field. lra.
Qed.
Lemma E_same : forall (A : Type) (f : (mat -> vec * mat) -> slab -> A), (forall g g', g (gam n x) = g' (gam n x) -> f g x = f g' x) -> f (E p) x = f eig x.
Proof. intros A f H. apply H. exact Here. Qed.
Lemma evals_E : evals n (E p) x = lam. Proof. unfold evals. rewrite Here. reflexivity. Qed.
Lemma evecs_E : evecs n (E p) x = V. Proof. unfold evecs. rewrite Here. reflexivity. Qed.
Lemma nu_E : nu n (E p) x = nu n eig x. Proof. unfold nu. rewrite evals_E. reflexivity. Qed.
Lemma w1n_E : w1n n (E p) x = w1n n eig x. Proof. unfold w1n. rewrite evecs_E, nu_E. reflexivity. Qed.
Lemma X_p_E : X_p n (E p) x = X_p n eig x. Proof. unfold X_p. rewrite evecs_E, w1n_E. reflexivity. Qed.
Lemma X_m_E : X_m n (E p) x = X_m n eig x. Proof. unfold X_m. rewrite evecs_E, w1n_E. reflexivity. Qed.
Lemma lambda_E : lambda n (E p) x = lambda n eig x. Proof. unfold lambda. rewrite nu_E. reflexivity. Qed.
Lemma ga_E : ga n (E p) x = ga n eig x. Proof. unfold ga. rewrite X_p_E, lambda_E. reflexivity. Qed.
Lemma gb_E : gb n solve (E p) x = gb n solve eig x. Proof. unfold gb. rewrite X_m_E, ga_E. reflexivity. Qed.
Lemma gc_E : gc n solve (E p) x = gc n solve eig x. Proof. unfold gc. rewrite X_m_E, gb_E, ga_E. reflexivity. Qed.
Lemma gd_E : gd n solve (E p) x = gd n solve eig x. Proof. unfold gd. rewrite gc_E, X_p_E. reflexivity. Qed.
Lemma ge_E : ge n solve (E p) x = ge n solve eig x. Proof. unfold ge. rewrite gc_E, X_m_E, lambda_E. reflexivity. Qed.
Lemma nu_nz : forall k, (k < n)%nat -> nu n eig x k <> 0. Proof. intros k Hk. destruct (nu_ev n eig x Ev k Hk). lra. Qed.

Lemma d_w1n : mderiv n (fun s => w1n n (E s) (X s)) p (w2n n solve eig x dx).
Proof.
  unfold w1n, w2n. 
  pose proof (md_dinv n (fun s => t_plus_r (X s) ** evecs n (E s) (X s)) (fun s => nu n (E s) (X s)) p _ _
     (mderiv_mul n _ _ p _ _ d_tpr d_evecs) d_nu) as D. cbv beta in D. rewrite evecs_E, nu_E in D. apply D. exact nu_nz.
Qed.
Lemma d_Xp : mderiv n (fun s => X_p n (E s) (X s)) p (X_p_l n solve eig x dx).
Proof. unfold X_p, X_p_l. apply md_scaled. apply mderiv_add; [exact d_evecs|exact d_w1n]. Qed.
Lemma d_Xm : mderiv n (fun s => X_m n (E s) (X s)) p (X_m_l n solve eig x dx).
Proof. unfold X_m, X_m_l. apply md_scaled. apply md_less; [exact d_evecs|exact d_w1n]. Qed.
Lemma d_lambda : vderiv n (fun s => lambda n (E s) (X s)) p (lambda_l n solve eig x dx).
Proof.
  intros k Hk. unfold lambda, lambda_l. 
  eapply dl_eq; [apply (dl_exp (fun s => - nu n (E s) (X s) k * ltau (X s))); apply (dl_mult (fun s => - nu n (E s) (X s) k)); [apply derivable_pt_lim_opp; exact (d_nu k Hk)|exact D_ltau]|].
  cbv beta. rewrite nu_E. unfold lambda. ring.
Qed.
Lemma d_ga : mderiv n (fun s => ga n (E s) (X s)) p (gf n solve eig x dx).
Proof.
  unfold ga, gf. rewrite <- lambda_E, <- X_p_E. apply md_diag; [exact d_Xp|exact d_lambda].
Qed.
Hypothesis XmN : nonsingular n (X_m n eig x).
Hypothesis GcN : nonsingular n (gc n solve eig x).
Lemma d_gb : mderiv n (fun s => gb n solve (E s) (X s)) p (gg n solve eig x dx).
Proof.
  pose proof (md_solve n (solve n) (fun s => X_m n (E s) (X s)) (fun s => ga n (E s) (X s)) p (X_m_l n solve eig x dx) (gf n solve eig x dx) Solve1) as D. cbv beta in D.
  rewrite X_m_E, ga_E in D. exact (D XmN d_Xm d_ga).
Qed.
Lemma d_gc : mderiv n (fun s => gc n solve (E s) (X s)) p (gh n solve eig x dx).
Proof.
  unfold gc, gh. eapply mderiv_ext; [|apply md_less; [exact d_Xm|apply mderiv_mul; [exact d_gb|exact d_ga]]].
  cbv beta. rewrite ga_E, gb_E. intros i j _ _. unfold less, madd. ring.
Qed.
Lemma d_gd : mderiv n (fun s => gd n solve (E s) (X s)) p (gp n solve eig x dx).
Proof.
  pose proof (md_solve n (solve n) (fun s => gc n solve (E s) (X s)) (fun s => X_p n (E s) (X s)) p (gh n solve eig x dx) (X_p_l n solve eig x dx) Solve1) as D. cbv beta in D.
  rewrite gc_E, X_p_E in D. exact (D GcN d_gc d_Xp).
Qed.
Lemma d_ge : mderiv n (fun s => ge n solve (E s) (X s)) p (gq n solve eig x dx).
Proof.
  pose proof (md_diag n _ _ p _ _ d_Xm d_lambda) as D0. cbv beta in D0.
  pose proof (md_solve n (solve n) (fun s => gc n solve (E s) (X s)) (fun s => mul_diag (X_m n (E s) (X s)) (lambda n (E s) (X s))) p (gh n solve eig x dx)) as D. cbv beta in D.
  rewrite gc_E in D. specialize (D _ Solve1 GcN d_gc D0). rewrite X_m_E, lambda_E in D. exact D.
Qed.
Lemma d_R_E : mderiv n (fun s => glob_R n solve (E s) (X s)) p (glob_R_l n solve eig x dx).
Proof.
  unfold glob_R, glob_R_l. rewrite <- gb_E, <- ge_E. apply md_less; [apply mderiv_mul; [exact d_ge|exact d_gb]|exact d_gd].
Qed.
Lemma d_T_E : mderiv n (fun s => glob_T n solve (E s) (X s)) p (glob_T_l n solve eig x dx).
Proof.
  unfold glob_T, glob_T_l. eapply mderiv_ext; [|apply md_less; [exact d_ge|apply mderiv_mul; [exact d_gd|exact d_gb]]].
  cbv beta. rewrite gb_E, gd_E. intros i j _ _. unfold less, madd. ring.
Qed.
End Smooth.

(** * Sources *)
Section Sources.
Variable n : nat.
Variable solve : nat -> mat -> mat -> mat.
Variable eig : mat -> vec * mat.
Notation "a ** b" := (mmul n a b) (at level 40, left associativity).
Notation "a =~ b" := (meq n a b) (at level 70).
Notation "a *v v" := (mv n a v) (at level 40, left associativity).
Notation "u +v v" := (vadd u v) (at level 50, left associativity).
Notation "u -v v" := (vless u v) (at level 50, left associativity).
Hypothesis Pos : (0 < n)%nat.
Variables (X : R -> slab) (p : R) (dx : slab).
Notation x := (X p).
Hypothesis Fixed : forall s, qx (X s) = qx x /\ qw (X s) = qw x /\ zeroth (X s) = zeroth x /\ flux0 (X s) = flux0 x.
Hypothesis D_omega : derivable_pt_lim (fun s => omega (X s)) p (omega dx).
Hypothesis D_ltau : derivable_pt_lim (fun s => ltau (X s)) p (ltau dx).
Hypothesis D_pp : mderiv n (fun s => P_pp (X s)) p (P_pp dx).
Hypothesis D_mp : mderiv n (fun s => P_mp (X s)) p (P_mp dx).
Hypothesis Qx : forall i, (i < n)%nat -> qx x i <> 0.
Variables (R' T' : mat).
Hypothesis D_R : mderiv n (fun s => glob_R n solve eig (X s)) p R'.
Hypothesis D_T : mderiv n (fun s => glob_T n solve eig (X s)) p T'.

Section Beam.
Hypothesis Solve1 : solver n (solve n).
Hypothesis D_mm : vderiv n (fun s => Q_mm (X s)) p (Q_mm dx).
Hypothesis D_pm : vderiv n (fun s => Q_pm (X s)) p (Q_pm dx).
Hypothesis D_as : derivable_pt_lim (fun s => as_0 (X s)) p (as_0 dx).
Hypothesis D_at : derivable_pt_lim (fun s => atran (X s)) p (atran dx).
Hypothesis As : as_0 x <> 0.
Hypothesis BfN : nonsingular n (beam_f n x).
Lemma d_beam_v : forall (Q : R -> vec) Q', vderiv n Q p Q' ->
  vderiv n (fun s => fun i => flux0 (X s) / (4 * PI) * omega (X s) / qx (X s) i * Q s i) p (beam_v_l x dx (Q p) Q').
Proof.
  intros Q Q' D i Hi. 
  apply (eq_around (fun s => flux0 x / (4 * PI) * omega (X s) * / qx x i * Q s i)).
  { apply around_true. intros s. destruct (Fixed s) as (-> & _ & _ & ->). reflexivity. }
  eapply dl_eq; [apply (dl_mult (fun s => flux0 x / (4 * PI) * omega (X s) * / qx x i) (fun s => Q s i)); [|apply D; exact Hi]|].
  - apply (dl_mult (fun s => flux0 x / (4 * PI) * omega (X s)) (fun _ => / qx x i)); [apply dl_scal; exact D_omega|apply dl_const].
  - cbv beta. unfold beam_v_l, Rdiv. ring.
Qed.
Lemma d_beam_d : vderiv n (fun s => beam_d (X s)) p (beam_d_l x dx).
Proof. apply vderiv_add; [exact (d_beam_v _ _ D_pm)|exact (d_beam_v _ _ D_mm)]. Qed.
Lemma d_beam_e : vderiv n (fun s => beam_e (X s)) p (beam_e_l x dx).
Proof. apply vd_less; [exact (d_beam_v _ _ D_pm)|exact (d_beam_v _ _ D_mm)]. Qed.
Let tpr' := d_tpr n X p dx Fixed D_omega D_pp D_mp Qx.
Let tmr' := d_tmr n X p dx Fixed D_omega D_pp D_mp Qx.
Let gam' := d_gam n X p dx Fixed D_omega D_pp D_mp Qx.
Lemma d_beam_f : mderiv n (fun s => beam_f n (X s)) p (fun i j => gam_l n x dx i j - (if Nat.eqb i j then 2 * as_0 x * as_0 dx else 0)).
Proof.
  intros i j Hi Hj. unfold beam_f. apply (dl_minus (fun s => gam n (X s) i j)); [apply gam'; assumption|]. 
  destruct (Nat.eqb i j); [|apply dl_const]. eapply dl_eq; [apply (dl_mult (fun s => as_0 (X s)) (fun s => as_0 (X s)) p _ _ D_as D_as)|]. cbv beta. ring.
Qed.
Lemma d_beam_p : vderiv n (fun s => beam_p n solve (X s)) p (beam_p_l n solve true x dx).
Proof.
  refine (vd_csolve n (solve n) (fun s => beam_f n (X s)) (fun s => vscale (- as_0 (X s)) (beam_d (X s)) -v t_minus_r (X s) *v beam_e (X s)) p _ _ _ Solve1 Pos BfN d_beam_f
    (vd_less n _ _ p _ _ (vd_scale n _ _ p _ _ (derivable_pt_lim_opp _ _ _ D_as) d_beam_d) (vderiv_mv n _ _ p _ _ tmr' d_beam_e)) _).
  cbv beta. intros j Hj. change (csolve (solve n) (beam_f n x) (vscale (- as_0 x) (beam_d x) -v t_minus_r x *v beam_e x)) with (beam_p n solve x).
  assert (((fun i j => gam_l n x dx i j - (if Nat.eqb i j then 2 * as_0 x * as_0 dx else 0)) *v beam_p n solve x) j = (gam_l n x dx *v beam_p n solve x) j - 2 * as_0 x * as_0 dx * beam_p n solve x j) as G.
  { unfold mv. rewrite (total_ext n _ (fun k => gam_l n x dx j k * beam_p n solve x k + - (1) * (if Nat.eqb j k then 2 * as_0 x * as_0 dx * beam_p n solve x k else 0))).
    - rewrite total_plus, total_scale, (total_pick n j (fun k => 2 * as_0 x * as_0 dx * beam_p n solve x k) Hj). ring.
    - intros k _. destruct (Nat.eqb j k); ring. }
  rewrite G. unfold vless, vadd, vscale, opp_fct. ring.
Qed.
Lemma d_beam_h : vderiv n (fun s => beam_h n solve (X s)) p (beam_h_l n solve true x dx).
Proof. unfold beam_h, beam_h_l. apply vderiv_add; [|exact d_beam_e]. apply vderiv_mv; [exact tpr'|exact d_beam_p]. Qed.
Lemma d_Fs_p : vderiv n (fun s => Fs_p n solve (X s)) p (Fs_p_l n solve true x dx).
Proof.
  unfold Fs_p, Fs_p_l. cbn [still negb andb].
  eapply vderiv_ext; [|apply vd_scale; [apply (dl_const (/ 2))|apply vderiv_add; [apply vd_scale; [|exact d_beam_h]|exact d_beam_p]]].
  2:{ eapply dl_div; [apply dl_const|exact D_as|exact As]. }
  intros i Hi. unfold vscale, vadd, Rsqr. field. exact As.
Qed.
Lemma d_Fs_m : vderiv n (fun s => Fs_m n solve (X s)) p (Fs_m_l n solve true x dx).
Proof. unfold Fs_m, Fs_m_l. cbn [still negb andb]. apply vd_less; [exact d_Fs_p|exact d_beam_p]. Qed.
(** With the derivatives of reflection and transmission given *)
Definition Sp_all : vec := Fs_p_l n solve true x dx -v vscale (atran x) (T' *v Fs_p n solve x) -v glob_T n solve eig x *v beam_A n solve true x dx
             -v R' *v Fs_m n solve x -v glob_R n solve eig x *v Fs_m_l n solve true x dx.
Definition Sm_all : vec := vscale (atran x) (Fs_m_l n solve true x dx) +v vscale (atran dx) (Fs_m n solve x) -v T' *v Fs_m n solve x
             -v glob_T n solve eig x *v Fs_m_l n solve true x dx -v vscale (atran x) (R' *v Fs_p n solve x) -v glob_R n solve eig x *v beam_A n solve true x dx.
Lemma mv_A : forall m i, (m *v beam_A n solve true x dx) i = atran x * (m *v Fs_p_l n solve true x dx) i + atran dx * (m *v Fs_p n solve x) i.
Proof. intros m i. unfold beam_A, vadd, vscale. rewrite mv_plus, !mv_scal. reflexivity. Qed.
Lemma d_S_p : vderiv n (fun s => S_p n solve eig (X s)) p Sp_all.
Proof.
  unfold S_p. eapply vderiv_ext; [|apply vd_less; [apply vd_less; [exact d_Fs_p|apply vd_scale; [exact D_at|apply vderiv_mv; [exact D_T|exact d_Fs_p]]]|apply vderiv_mv; [exact D_R|exact d_Fs_m]]].
  intros i Hi. unfold Sp_all, vless, vadd, vscale. rewrite mv_A. ring.
Qed.
Lemma d_S_m : vderiv n (fun s => S_m n solve eig (X s)) p Sm_all.
Proof.
  unfold S_m. eapply vderiv_ext; [|apply vd_less; [apply vd_scale; [exact D_at|apply vd_less; [exact d_Fs_m|apply vderiv_mv; [exact D_R|exact d_Fs_p]]]|apply vderiv_mv; [exact D_T|exact d_Fs_m]]].
  intros i Hi. unfold Sm_all, vless, vadd, vscale. rewrite mv_A. ring.
Qed.
End Beam.

Section Thermal.
Hypothesis Solve2 : solver (n + n) (solve (n + n)%nat).
Hypothesis D_p0 : derivable_pt_lim (fun s => planck0 (X s)) p (planck0 dx).
Hypothesis D_p1 : derivable_pt_lim (fun s => planck1 (X s)) p (planck1 dx).
Hypothesis LN : ltau x <> 0.
Hypothesis TwN : nonsingular (n + n) (ther_w n x).
Lemma d_slope : derivable_pt_lim (fun s => slope (X s)) p (slope_l true x dx).
Proof.
  unfold slope. eapply dl_eq; [apply (dl_div (fun s => planck1 (X s) - planck0 (X s))); [apply dl_minus; [exact D_p1|exact D_p0]|exact D_ltau|exact LN]|].
  unfold slope_l, slope, Rsqr. field. exact LN.
Qed.
Lemma d_ther_w : mderiv (n + n) (fun s => ther_w n (X s)) p (ther_w_l n x dx).
Proof.
  pose proof (d_local_t n X p dx Fixed D_omega D_pp Qx) as Dt. pose proof (d_local_r n X p dx Fixed D_omega D_mp Qx) as Dr.
  intros i j Hi Hj. unfold ther_w, ther_w_l, wide.
  destruct (Nat.ltb i n) eqn:Li, (Nat.ltb j n) eqn:Lj; rewrite ?Nat.ltb_lt, ?Nat.ltb_ge in *.
  - apply (eq_around (fun s => - local_t (X s) i j * qx x i)). { apply around_true. intros s. destruct (Fixed s) as (-> & _). reflexivity. }
    eapply dl_eq; [apply (dl_mult (fun s => - local_t (X s) i j) (fun _ => qx x i)); [apply derivable_pt_lim_opp; apply Dt; lia|apply dl_const]|]. cbv beta. ring.
  - apply (eq_around (fun s => local_r (X s) i (j - n)%nat * qx x i)). { apply around_true. intros s. destruct (Fixed s) as (-> & _). reflexivity. }
    eapply dl_eq; [apply (dl_mult (fun s => local_r (X s) i (j - n)%nat) (fun _ => qx x i)); [apply Dr; lia|apply dl_const]|]. cbv beta. ring.
  - apply (eq_around (fun s => - local_r (X s) (i - n)%nat j * - qx x (i - n)%nat)). { apply around_true. intros s. destruct (Fixed s) as (-> & _). reflexivity. }
    eapply dl_eq; [apply (dl_mult (fun s => - local_r (X s) (i - n)%nat j) (fun _ => - qx x (i - n)%nat)); [apply derivable_pt_lim_opp; apply Dr; lia|apply dl_const]|]. cbv beta. ring.
  - apply (eq_around (fun s => local_t (X s) (i - n)%nat (j - n)%nat * - qx x (i - n)%nat)). { apply around_true. intros s. destruct (Fixed s) as (-> & _). reflexivity. }
    eapply dl_eq; [apply (dl_mult (fun s => local_t (X s) (i - n)%nat (j - n)%nat) (fun _ => - qx x (i - n)%nat)); [apply Dt; lia|apply dl_const]|]. cbv beta. ring.
Qed.
Lemma d_one_less : forall f f', derivable_pt_lim f p f' -> derivable_pt_lim (fun s => (1 - omega (X s)) * f s) p (- omega dx * f p + (1 - omega x) * f').
Proof.
  intros f f' D. eapply dl_eq; [apply (dl_mult (fun s => 1 - omega (X s)) f); [apply dl_minus; [apply dl_const|exact D_omega]|exact D]|]. cbv beta. ring.
Qed.
Lemma d_ther_a1 : vderiv (n + n) (fun s => ther_a1 n solve (X s)) p (ther_a1_l n solve true x dx).
Proof.
  refine (vd_csolve (n + n) (solve (n + n)%nat) (fun s => ther_w n (X s)) (fun s => fun _ => (1 - omega (X s)) * slope (X s)) p _
     (fun _ => - omega dx * slope x + (1 - omega x) * slope_l true x dx) _ Solve2 ltac:(lia) TwN d_ther_w _ _).
  - intros i Hi. exact (d_one_less _ _ d_slope).
  - intros j Hj. reflexivity.
Qed.
Lemma d_signed : forall f f', vderiv (n + n) f p f' -> vderiv (n + n) (fun s => signed n (qx (X s)) (f s)) p (signed n (qx x) f').
Proof.
  intros f f' D i Hi. unfold signed. apply (eq_around (fun s => f s i * (if Nat.ltb i n then qx x i else - qx x (i - n)%nat))).
  { apply around_true. intros s. destruct (Fixed s) as (-> & _). reflexivity. }
  eapply dl_eq; [apply (dl_mult (fun s => f s i) (fun _ => if Nat.ltb i n then qx x i else - qx x (i - n)%nat)); [apply D; exact Hi|apply dl_const]|]. cbv beta. ring.
Qed.
Lemma d_ther_a0 : vderiv (n + n) (fun s => ther_a0 n solve (X s)) p (ther_a0_l n solve true x dx).
Proof.
  refine (vd_csolve (n + n) (solve (n + n)%nat) (fun s => ther_w n (X s)) (fun s => fun j => (1 - omega (X s)) * planck0 (X s) + signed n (qx (X s)) (ther_a1 n solve (X s)) j) p _
     (fun j => (- omega dx * planck0 x + (1 - omega x) * planck0 dx) + signed n (qx x) (ther_a1_l n solve true x dx) j) _ Solve2 ltac:(lia) TwN d_ther_w _ _).
  - intros i Hi. apply dl_plus; [exact (d_one_less _ _ D_p0)|exact (d_signed _ _ d_ther_a1 i Hi)].
  - intros j Hj. cbv beta. unfold ther_a0. ring.
Qed.
Lemma d_up : forall f f', vderiv (n + n) f p f' -> vderiv n (fun s => upper (f s)) p (upper f').
Proof. intros f f' D i Hi. apply D. lia. Qed.
Lemma d_lo : forall f f', vderiv (n + n) f p f' -> vderiv n (fun s => lower n (f s)) p (lower n f').
Proof. intros f f' D i Hi. apply (D (n + i)%nat). lia. Qed.
Lemma d_F0_p : vderiv n (fun s => F0_p n solve (X s)) p (F0_p_l n solve true x dx). Proof. exact (d_up _ _ d_ther_a0). Qed.
Lemma d_F0_m : vderiv n (fun s => F0_m n solve (X s)) p (F0_m_l n solve true x dx). Proof. exact (d_lo _ _ d_ther_a0). Qed.
Lemma d_F1_p : vderiv n (fun s => F1_p n solve (X s)) p (F1_p_l n solve true x dx).
Proof.
  unfold F1_p, F1_p_l. eapply vderiv_ext; [|apply vderiv_add; [exact (d_up _ _ d_ther_a0)|apply vd_scale; [exact D_ltau|exact (d_up _ _ d_ther_a1)]]].
  intros i Hi. unfold vadd, vscale. ring.
Qed.
Lemma d_F1_m : vderiv n (fun s => F1_m n solve (X s)) p (F1_m_l n solve true x dx).
Proof.
  unfold F1_m, F1_m_l. eapply vderiv_ext; [|apply vderiv_add; [exact (d_lo _ _ d_ther_a0)|apply vd_scale; [exact D_ltau|exact (d_lo _ _ d_ther_a1)]]].
  intros i Hi. unfold vadd, vscale. ring.
Qed.
Definition Slp_all : vec := F0_p_l n solve true x dx -v T' *v F1_p n solve x -v glob_T n solve eig x *v F1_p_l n solve true x dx
             -v R' *v F0_m n solve x -v glob_R n solve eig x *v F0_m_l n solve true x dx.
Definition Slm_all : vec := F1_m_l n solve true x dx -v R' *v F1_p n solve x -v glob_R n solve eig x *v F1_p_l n solve true x dx
             -v T' *v F0_m n solve x -v glob_T n solve eig x *v F0_m_l n solve true x dx.
Lemma d_Sl_p : vderiv n (fun s => Sl_p n solve eig (X s)) p Slp_all.
Proof.
  unfold Sl_p. eapply vderiv_ext; [|apply vd_less; [apply vd_less; [exact d_F0_p|apply vderiv_mv; [exact D_T|exact d_F1_p]]|apply vderiv_mv; [exact D_R|exact d_F0_m]]].
  intros i Hi. unfold Slp_all, vless, vadd. ring.
Qed.
Lemma d_Sl_m : vderiv n (fun s => Sl_m n solve eig (X s)) p Slm_all.
Proof.
  unfold Sl_m. eapply vderiv_ext; [|apply vd_less; [apply vd_less; [exact d_F1_m|apply vderiv_mv; [exact D_R|exact d_F1_p]]|apply vderiv_mv; [exact D_T|exact d_F0_m]]].
  intros i Hi. unfold Slm_all, vless, vadd. ring.
Qed.
End Thermal.
End Sources.
