(** Transposes and weighted sums. *)
From Coq Require Import Reals Bool Arith Lia Lra Setoid Morphisms Ncring Ncring_tac.
From Verif Require Import Base DeltaMSpec DeltaMProofs BeamProofs AddingModel AddingSpec AddingMat AddingJoin AddingDeriv AddingCalls RadianceModel
  AddingAdjModel AddingAdjSpec.
Open Scope R_scope.

Section Weigh.
Variable n : nat.
Local Instance o : @Ring_ops mat zmat ident madd (mmul n) msub mneg (meq n) := mat_ops n.
Local Instance r : Ring (Ro := o) := mat_ring n.
Notation "a =~ b" := (meq n a b) (at level 70).
Notation "a ** b" := (mmul n a b) (at level 40, left associativity).
Notation "a +++ b" := (madd a b) (at level 50, left associativity).
Notation mw := (mweigh n).
Notation vw := (vweigh n).

Global Instance transp_proper : Proper (meq n ==> meq n) transp.
Proof. intros a b H i j Hi Hj. apply H; assumption. Qed.
Global Instance outer_proper : Proper (veq n ==> veq n ==> meq n) outer.
Proof. intros a b H c d K i j Hi Hj. unfold outer. rewrite H, K by assumption. reflexivity. Qed.
Global Instance mweigh_proper : Proper (meq n ==> meq n ==> eq) mw.
Proof.
  intros a b H c d K. apply total_ext. intros i Hi. apply total_ext. intros j Hj. rewrite H, K by assumption. reflexivity.
Qed.
Global Instance vweigh_proper : Proper (veq n ==> veq n ==> eq) vw.
Proof. intros a b H c d K. apply total_ext. intros i Hi. rewrite H, K by assumption. reflexivity. Qed.

Lemma transp_mul : forall a b, transp (a ** b) =~ transp b ** transp a.
Proof. intros a b i j _ _. unfold transp, mmul. apply total_ext. intros. ring. Qed.
Lemma transp_add : forall a b, transp (a +++ b) =~ transp a +++ transp b.
Proof. intros a b i j _ _. reflexivity. Qed.
Lemma transp_twice : forall a, transp (transp a) =~ a.
Proof. intros a i j _ _. reflexivity. Qed.
Lemma transp_i_sub : forall a, transp (i_sub a) =~ i_sub (transp a).
Proof. intros a i j _ _. unfold transp, i_sub. rewrite (Nat.eqb_sym j i). reflexivity. Qed.
Lemma transp_ident : transp ident =~ ident.
Proof. intros i j _ _. unfold transp, ident. rewrite (Nat.eqb_sym j i). reflexivity. Qed.

Lemma mw_add_l : forall g h x, mw (g +++ h) x = mw g x + mw h x.
Proof.
  intros. unfold mweigh. rewrite <- total_plus. apply total_ext. intros i _. rewrite <- total_plus. apply total_ext. intros j _.
  unfold madd. ring.
Qed.
Lemma mw_add_r : forall g x y, mw g (x +++ y) = mw g x + mw g y.
Proof.
  intros. unfold mweigh. rewrite <- total_plus. apply total_ext. intros i _. rewrite <- total_plus. apply total_ext. intros j _.
  unfold madd. ring.
Qed.
Lemma vw_add_l : forall g h x, vw (vadd g h) x = vw g x + vw h x.
Proof. intros. unfold vweigh. rewrite <- total_plus. apply total_ext. intros i _. unfold vadd. ring. Qed.
Lemma vw_add_r : forall g x y, vw g (vadd x y) = vw g x + vw g y.
Proof. intros. unfold vweigh. rewrite <- total_plus. apply total_ext. intros i _. unfold vadd. ring. Qed.
Lemma vw_one : forall g x, vw (vscale 1 g) x = vw g x.
Proof. intros. apply total_ext. intros i _. unfold vscale. ring. Qed.
Lemma mw_zero_r : forall g, mw g zmat = 0.
Proof. intros. apply total_zero. intros i _. apply total_zero. intros j _. unfold zmat. ring. Qed.
Lemma vw_zero_r : forall g, vw g zvec = 0.
Proof. intros. apply total_zero. intros i _. unfold zvec. ring. Qed.
Lemma mw_zero_l : forall g, mw zmat g = 0.
Proof. intros. apply total_zero. intros i _. apply total_zero. intros j _. unfold zmat. ring. Qed.
Lemma vw_zero_l : forall g, vw zvec g = 0.
Proof. intros. apply total_zero. intros i _. unfold zvec. ring. Qed.

(** A factor moves to the other side as its transpose. *)
Lemma mw_left : forall g a x, mw g (a ** x) = mw (transp a ** g) x.
Proof.
  intros g a x. unfold mweigh, mmul, transp.
  transitivity (total n (fun i => total n (fun j => total n (fun k => g i j * a i k * x k j)))).
  { apply total_ext. intros i _. apply total_ext. intros j _. rewrite <- total_scale. apply total_ext. intros. ring. }
  transitivity (total n (fun k => total n (fun j => total n (fun i => g i j * a i k * x k j)))).
  { transitivity (total n (fun i => total n (fun k => total n (fun j => g i j * a i k * x k j)))).
    { apply total_ext. intros i _. apply total_swap. }
    rewrite total_swap. apply total_ext. intros k _. apply total_swap. }
  apply total_ext. intros k _. apply total_ext. intros j _. rewrite <- total_scale_r. apply total_ext. intros. ring.
Qed.
Lemma mw_transp : forall g x, mw g x = mw (transp g) (transp x).
Proof. intros g x. unfold mweigh, transp. apply total_swap. Qed.
Lemma mw_right : forall g x b, mw g (x ** b) = mw (g ** transp b) x.
Proof.
  intros g x b. rewrite (mw_transp g), transp_mul, mw_left, (mw_transp (g ** transp b)), transp_mul. reflexivity.
Qed.
Lemma vw_mv : forall g a x, vw g (mv n a x) = vw (mv n (transp a) g) x.
Proof.
  intros g a x. unfold vweigh, mv, transp.
  transitivity (total n (fun i => total n (fun k => g i * a i k * x k))).
  { apply total_ext. intros i _. rewrite <- total_scale. apply total_ext. intros. ring. }
  rewrite total_swap. apply total_ext. intros k _. rewrite <- total_scale_r. apply total_ext. intros. ring.
Qed.
Lemma vw_outer : forall g a x, vw g (mv n a x) = mw (outer g x) a.
Proof.
  intros g a x. unfold vweigh, mv, mweigh, outer. apply total_ext. intros i _. rewrite <- total_scale. apply total_ext. intros. ring.
Qed.
Lemma outer_left : forall a u v, a ** outer u v =~ outer (mv n a u) v.
Proof. intros a u v i j _ _. unfold mmul, outer, mv. rewrite <- total_scale_r. apply total_ext. intros. ring. Qed.
Lemma outer_right : forall a u v, outer u v ** transp a =~ outer u (mv n a v).
Proof. intros a u v i j _ _. unfold mmul, outer, mv, transp. rewrite <- total_scale. apply total_ext. intros. ring. Qed.
Lemma outer_add_r : forall u v w, outer u (vadd v w) =~ outer u v +++ outer u w.
Proof. intros u v w i j _ _. unfold outer, vadd, madd. ring. Qed.
Lemma outer_add_l : forall u v w, outer (vadd u v) w =~ outer u w +++ outer v w.
Proof. intros u v w i j _ _. unfold outer, vadd, madd. ring. Qed.
Lemma mv_mul : forall a b v, veq n (mv n (a ** b) v) (mv n a (mv n b v)).
Proof.
  intros a b v. apply veq_col. rewrite !col_mv. non_commutative_ring.
Qed.
Lemma vscale_one : forall v, veq n (vscale 1 v) v.
Proof. intros v i _. unfold vscale. ring. Qed.

(** dmat_getrs2 with 't' is the multiplication by the transposed inverse from the right. *)
Lemma tsolve_mul : forall tsolve m p x, tsolver n tsolve -> m ** p =~ ident -> p ** m =~ ident -> tsolve m x =~ x ** transp p.
Proof.
  intros ts m p x C H K.
  assert (transp m ** transp p =~ ident) as H' by (rewrite <- transp_mul, K; apply transp_ident).
  assert (transp p ** transp m =~ ident) as K' by (rewrite <- transp_mul, H; apply transp_ident).
  apply (cancel_r n _ _ (transp m) (transp p) H').
  transitivity x; [apply (C m x); exists p; split; assumption|].
  transitivity (x ** (transp p ** transp m)); [rewrite K'; symmetry; apply mmul_1_r|non_commutative_ring].
Qed.

(** Derivatives of weighted sums *)
Lemma dl_sum : forall m (f : R -> nat -> R) p (d : nat -> R), (forall i, (i < m)%nat -> derivable_pt_lim (fun t => f t i) p (d i)) ->
  derivable_pt_lim (fun t => total m (f t)) p (total m d).
Proof.
  induction m as [|m IH]; intros f p d H; cbn [total]; [apply derivable_pt_lim_const|].
  apply (derivable_pt_lim_plus (fun t => total m (f t)) (fun t => f t m)).
  - apply IH. intros i Hi. apply H. lia.
  - apply (H m). lia.
Qed.
Lemma mw_deriv : forall g F p x, mderiv n F p x -> derivable_pt_lim (fun t => mw g (F t)) p (mw g x).
Proof.
  intros g F p x D. unfold mweigh. apply (dl_sum n (fun t i => total n (fun j => g i j * F t i j))). intros i Hi.
  apply (dl_sum n (fun t j => g i j * F t i j)). intros j Hj.
  apply (derivable_pt_lim_scal (fun t => F t i j)). apply D; assumption.
Qed.
Lemma vw_deriv : forall g F p x, vderiv n F p x -> derivable_pt_lim (fun t => vw g (F t)) p (vw g x).
Proof.
  intros g F p x D. unfold vweigh. apply (dl_sum n (fun t i => g i * F t i)). intros i Hi.
  apply (derivable_pt_lim_scal (fun t => F t i)). apply D; assumption.
Qed.
Lemma lw_deriv : forall g F p x, lderiv n F p x -> derivable_pt_lim (fun t => lweigh n g (F t)) p (lweigh n g x).
Proof.
  intros g F p x (A & B & C & D & E & G). unfold lweigh.
  apply (derivable_pt_lim_plus (fun t => mw (Rm g) (Rm (F t)) + mw (Tm g) (Tm (F t)) + vw (Sm g) (Sm (F t)))
                               (fun t => mw (Rp g) (Rp (F t)) + mw (Tp g) (Tp (F t)) + vw (Sp g) (Sp (F t)))).
  - apply (derivable_pt_lim_plus (fun t => mw (Rm g) (Rm (F t)) + mw (Tm g) (Tm (F t))) (fun t => vw (Sm g) (Sm (F t)))).
    + apply (derivable_pt_lim_plus (fun t => mw (Rm g) (Rm (F t))) (fun t => mw (Tm g) (Tm (F t)))); apply mw_deriv; assumption.
    + apply vw_deriv; assumption.
  - apply (derivable_pt_lim_plus (fun t => mw (Rp g) (Rp (F t)) + mw (Tp g) (Tp (F t))) (fun t => vw (Sp g) (Sp (F t)))).
    + apply (derivable_pt_lim_plus (fun t => mw (Rp g) (Rp (F t))) (fun t => mw (Tp g) (Tp (F t)))); apply mw_deriv; assumption.
    + apply vw_deriv; assumption.
Qed.
Lemma fw_deriv : forall g F p x, fderiv n F p x -> derivable_pt_lim (fun t => fweigh n g (F t)) p (fweigh n g x).
Proof.
  intros g F p x [A B]. unfold fweigh. apply (derivable_pt_lim_plus (fun t => mw (fR g) (fR (F t))) (fun t => vw (fS g) (fS (F t)))).
  - apply mw_deriv, A.
  - apply vw_deriv, B.
Qed.
Lemma lw_leq : forall g x y, leq n x y -> lweigh n g x = lweigh n g y.
Proof. intros g x y (A & B & C & D & E & F). unfold lweigh. rewrite A, B, C, D, E, F. reflexivity. Qed.
Lemma fw_feq : forall g x y, feq n x y -> fweigh n g x = fweigh n g y.
Proof. intros g x y [A B]. unfold fweigh. rewrite A, B. reflexivity. Qed.
Lemma lw_flip : forall g x, lweigh n (flip g) (flip x) = lweigh n g x.
Proof. intros g x. unfold lweigh. cbn [flip Rm Tm Sm Rp Tp Sp]. ring. Qed.
End Weigh.
