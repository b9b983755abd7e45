(** Matrices of order n over the reals as a non-commutative ring. *)
From Coq Require Import Reals Bool Arith Lia Lra Setoid Morphisms Ncring Ncring_tac.
From Verif Require Import DeltaMSpec DeltaMProofs BeamProofs AddingModel AddingSpec.
Open Scope R_scope.

Definition mneg (a : mat) : mat := fun i j => - a i j.
Definition msub (a b : mat) : mat := fun i j => a i j - b i j.

Lemma total_swap : forall n m (f : nat -> nat -> R), total n (fun i => total m (fun j => f i j)) = total m (fun j => total n (fun i => f i j)).
Proof.
  induction n as [|n IH]; intros m f; [symmetry; apply total_zero; reflexivity|].
  cbn [total]. rewrite IH, <- total_plus. reflexivity.
Qed.
Lemma total_one : forall n k (f : nat -> R), (k < n)%nat -> (forall i, (i < n)%nat -> i <> k -> f i = 0) -> total n f = f k.
Proof.
  induction n as [|n IH]; intros k f L Z; [lia|]. cbn [total].
  destruct (Nat.eq_dec k n) as [->|N].
  - rewrite total_zero; [lra|]. intros i Hi. apply Z; lia.
  - rewrite (IH k), (Z n); [lra|lia|lia|lia|]. intros i Hi Ni. apply Z; lia.
Qed.
Lemma total_scale_r : forall n c g, total n (fun k => g k * c) = total n g * c.
Proof. intros. rewrite Rmult_comm, <- total_scale. apply total_ext. intros. ring. Qed.

(** Vectors as matrices whose columns are all the same. *)
Definition col (v : vec) : mat := fun i _ => v i.
Section Ring.
Variable n : nat.
Global Instance meq_equiv : Equivalence (meq n).
Proof.
  split.
  - intros a i j _ _. reflexivity.
  - intros a b H i j Hi Hj. symmetry. auto.
  - intros a b c H K i j Hi Hj. rewrite H, K; auto.
Qed.
Global Instance mmul_proper : Proper (meq n ==> meq n ==> meq n) (mmul n).
Proof. intros a a' Ha b b' Hb i j Hi Hj. apply total_ext. intros k Hk. rewrite Ha, Hb; auto. Qed.
Global Instance madd_proper : Proper (meq n ==> meq n ==> meq n) madd.
Proof. intros a a' Ha b b' Hb i j Hi Hj. unfold madd. rewrite Ha, Hb; auto. Qed.
Global Instance msub_proper : Proper (meq n ==> meq n ==> meq n) msub.
Proof. intros a a' Ha b b' Hb i j Hi Hj. unfold msub. rewrite Ha, Hb; auto. Qed.
Global Instance mneg_proper : Proper (meq n ==> meq n) mneg.
Proof. intros a a' Ha i j Hi Hj. unfold mneg. rewrite Ha; auto. Qed.
Lemma mmul_assoc : forall a b c i j, mmul n a (mmul n b c) i j = mmul n (mmul n a b) c i j.
Proof.
  intros. unfold mmul.
  rewrite (total_ext n (fun k => a i k * total n (fun k0 => b k k0 * c k0 j)) (fun k => total n (fun k0 => a i k * b k k0 * c k0 j))).
  - rewrite total_swap. apply total_ext. intros k _. rewrite <- total_scale_r. reflexivity.
  - intros k _. rewrite <- total_scale. apply total_ext. intros. ring.
Qed.
Lemma mmul_1_l : forall a, meq n (mmul n ident a) a.
Proof.
  intros a i j Hi _. unfold mmul, ident. rewrite (total_one n i); [rewrite Nat.eqb_refl; ring|exact Hi|].
  intros k _ Nk. destruct (Nat.eqb_spec i k); [congruence|ring].
Qed.
Lemma mmul_1_r : forall a, meq n (mmul n a ident) a.
Proof.
  intros a i j _ Hj. unfold mmul, ident. rewrite (total_one n j); [rewrite Nat.eqb_refl; ring|exact Hj|].
  intros k _ Nk. destruct (Nat.eqb_spec k j); [congruence|ring].
Qed.
Lemma mmul_add_l : forall a b c i j, mmul n (madd a b) c i j = madd (mmul n a c) (mmul n b c) i j.
Proof. intros. unfold mmul, madd. rewrite <- total_plus. apply total_ext. intros. ring. Qed.
Lemma mmul_add_r : forall a b c i j, mmul n c (madd a b) i j = madd (mmul n c a) (mmul n c b) i j.
Proof. intros. unfold mmul, madd. rewrite <- total_plus. apply total_ext. intros. ring. Qed.

Local Instance mat_ops : @Ring_ops mat zmat ident madd (mmul n) msub mneg (meq n).
Defined.
Local Instance mat_ring : Ring (Ro := mat_ops).
Proof.
  split.
  - exact meq_equiv.
  - exact madd_proper.
  - exact mmul_proper.
  - exact msub_proper.
  - exact mneg_proper.
  - intros x i j _ _. exact (Rplus_0_l (x i j)).
  - intros x y i j _ _. exact (Rplus_comm (x i j) (y i j)).
  - intros x y z i j _ _. exact (eq_sym (Rplus_assoc (x i j) (y i j) (z i j))).
  - intros x. exact (mmul_1_l x).
  - intros x. exact (mmul_1_r x).
  - intros x y z i j _ _. exact (mmul_assoc x y z i j).
  - intros x y z i j _ _. exact (mmul_add_l x y z i j).
  - intros x y z i j _ _. exact (mmul_add_r x y z i j).
  - intros x y i j _ _. exact (eq_refl (x i j - y i j)).
  - intros x i j _ _. exact (Rplus_opp_r (x i j)).
Qed.

Lemma veq_col : forall u v, veq n u v <-> meq n (col u) (col v).
Proof. intros u v. split; [intros H i j Hi _; exact (H i Hi)|intros H i Hi; exact (H i i Hi Hi)]. Qed.
Lemma col_mv : forall a v, meq n (col (mv n a v)) (mmul n a (col v)).
Proof. intros a v i j _ _. reflexivity. Qed.
Lemma col_vadd : forall u v, meq n (col (vadd u v)) (madd (col u) (col v)).
Proof. intros u v i j _ _. reflexivity. Qed.
Lemma col_one : forall v, meq n (col (vscale 1 v)) (col v).
Proof. intros v i j _ _. unfold col, vscale. ring. Qed.
Lemma col_none : forall v, meq n (col (vscale 0 v)) zmat.
Proof. intros v i j _ _. unfold col, vscale, zmat. ring. Qed.
Lemma col_zero : meq n (col zvec) zmat.
Proof. intros i j _ _. reflexivity. Qed.
Global Instance veq_equiv : Equivalence (veq n).
Proof.
  split.
  - intros a i _. reflexivity.
  - intros a b H i Hi. symmetry. auto.
  - intros a b c H K i Hi. rewrite H, K; auto.
Qed.
Global Instance col_proper : Proper (veq n ==> meq n) col.
Proof. intros u v H. apply veq_col, H. Qed.
Global Instance mv_proper : Proper (meq n ==> veq n ==> veq n) (mv n).
Proof. intros a a' Ha b b' Hb i Hi. apply total_ext. intros k Hk. rewrite Ha, Hb; auto. Qed.
Global Instance vadd_proper : Proper (veq n ==> veq n ==> veq n) vadd.
Proof. intros a a' Ha b b' Hb i Hi. unfold vadd. rewrite Ha, Hb; auto. Qed.
Global Instance vscale_proper : forall t, Proper (veq n ==> veq n) (vscale t).
Proof. intros t a a' Ha i Hi. unfold vscale. rewrite Ha; auto. Qed.
Global Instance i_sub_proper : Proper (meq n ==> meq n) i_sub.
Proof. intros a a' Ha i j Hi Hj. unfold i_sub. rewrite Ha; auto. Qed.
Lemma i_sub_is : forall a, meq n (i_sub a) (msub ident a).
Proof. intros a i j _ _. reflexivity. Qed.

(** Inverses *)
Lemma product_meq : forall a b c, product n a b c <-> meq n (mmul n a b) c.
Proof. intros. reflexivity. Qed.
Global Instance nonsingular_proper : Proper (meq n ==> iff) (nonsingular n).
Proof.
  assert (forall a b, meq n a b -> nonsingular n a -> nonsingular n b) as K.
  { intros a b H (p & X & Y). rewrite product_meq in X, Y. exists p. split; rewrite product_meq; rewrite <- H; assumption. }
  intros a b H. split; apply K; [|symmetry]; exact H.
Qed.
Lemma cancel_r : forall a b m p, meq n (mmul n m p) ident -> meq n (mmul n a m) (mmul n b m) -> meq n a b.
Proof.
  intros a b m p H K. rewrite <- (mmul_1_r a), <- (mmul_1_r b), <- H.
  transitivity (mmul n (mmul n a m) p); [non_commutative_ring|]. rewrite K. non_commutative_ring.
Qed.
(** dmat_getrs is the multiplication by the inverse from the right. *)
Lemma solve_mul : forall solve m p x, solver n solve -> meq n (mmul n m p) ident -> meq n (mmul n p m) ident ->
  meq n (solve m x) (mmul n x p).
Proof.
  intros solve m p x C H K. apply (cancel_r _ _ m p H).
  transitivity x; [apply (C m x); exists p; split; assumption|].
  transitivity (mmul n x (mmul n p m)); [rewrite K; symmetry; apply mmul_1_r|non_commutative_ring].
Qed.
(** E - a b and E - b a are nonsingular together. *)
Lemma push_through : forall a b p, meq n (mmul n (msub ident (mmul n a b)) p) ident -> meq n (mmul n p (msub ident (mmul n a b))) ident ->
  let q := madd ident (mmul n b (mmul n p a)) in
  meq n (mmul n (msub ident (mmul n b a)) q) ident /\ meq n (mmul n q (msub ident (mmul n b a))) ident.
Proof.
  intros a b p H K q. unfold q. split.
  - transitivity (madd (msub ident (mmul n b a)) (mmul n b (mmul n (mmul n (msub ident (mmul n a b)) p) a))); [non_commutative_ring|].
    rewrite H. non_commutative_ring.
  - transitivity (madd (msub ident (mmul n b a)) (mmul n b (mmul n (mmul n p (msub ident (mmul n a b))) a))); [non_commutative_ring|].
    rewrite K. non_commutative_ring.
Qed.
End Ring.
