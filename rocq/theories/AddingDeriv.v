(** Derivatives of matrices: products, and the inverse. *)
From Coq Require Import Reals Bool Arith Lia Lra Setoid Morphisms Ncring Ncring_tac List ZArith.
From Verif Require Import Base DerivsModel DeltaMSpec DeltaMProofs BeamProofs AddingModel AddingSpec AddingMat AddingJoin.
Open Scope R_scope.

(** The sum of the absolute values of the entries *)
Definition norm (n : nat) (a : mat) : R := total n (fun i => total n (fun j => Rabs (a i j))).
Lemma total_nonneg : forall n f, (forall k, (k < n)%nat -> 0 <= f k) -> 0 <= total n f.
Proof. induction n as [|n IH]; intros f H; cbn [total]; [lra|]. specialize (IH f (fun k Hk => H k ltac:(lia))). specialize (H n ltac:(lia)). lra. Qed.
Lemma total_mono : forall n f g, (forall k, (k < n)%nat -> f k <= g k) -> total n f <= total n g.
Proof. induction n as [|n IH]; intros f g H; cbn [total]; [lra|]. specialize (IH f g (fun k Hk => H k ltac:(lia))). specialize (H n ltac:(lia)). lra. Qed.
Lemma total_abs : forall n f, Rabs (total n f) <= total n (fun k => Rabs (f k)).
Proof. induction n as [|n IH]; intros f; cbn [total]; [rewrite Rabs_R0; lra|]. eapply Rle_trans; [apply Rabs_triang|]. specialize (IH f). lra. Qed.
Lemma total_ge_one : forall n f k, (forall k, (k < n)%nat -> 0 <= f k) -> (k < n)%nat -> f k <= total n f.
Proof.
  induction n as [|n IH]; intros f k H L; [lia|]. cbn [total]. destruct (Nat.eq_dec k n) as [->|N].
  - specialize (total_nonneg n f (fun k Hk => H k ltac:(lia))). lra.
  - specialize (IH f k (fun k Hk => H k ltac:(lia)) ltac:(lia)). specialize (H n ltac:(lia)). lra.
Qed.
Section Norm.
Variable n : nat.
Lemma norm_nonneg : forall a, 0 <= norm n a.
Proof. intros a. apply total_nonneg. intros i _. apply total_nonneg. intros j _. apply Rabs_pos. Qed.
Lemma norm_entry : forall a i j, (i < n)%nat -> (j < n)%nat -> Rabs (a i j) <= norm n a.
Proof.
  intros a i j Hi Hj. eapply Rle_trans; [|apply (total_ge_one n (fun i => total n (fun j => Rabs (a i j))) i)]; [|intros; apply total_nonneg; intros; apply Rabs_pos|exact Hi].
  apply (total_ge_one n (fun j => Rabs (a i j)) j); [intros; apply Rabs_pos|exact Hj].
Qed.
Lemma norm_ext : forall a b, meq n a b -> norm n a = norm n b.
Proof. intros a b H. apply total_ext. intros i Hi. apply total_ext. intros j Hj. rewrite H by assumption. reflexivity. Qed.
Lemma norm_add : forall a b, norm n (madd a b) <= norm n a + norm n b.
Proof.
  intros a b. unfold norm. rewrite <- total_plus. apply total_mono. intros i _. rewrite <- total_plus. apply total_mono. intros j _. apply Rabs_triang.
Qed.
Lemma norm_neg : forall a, norm n (mneg a) = norm n a.
Proof. intros a. unfold norm, mneg. apply total_ext. intros i _. apply total_ext. intros j _. apply Rabs_Ropp. Qed.
Lemma norm_sub : forall a b, norm n (msub a b) <= norm n a + norm n b.
Proof.
  intros a b. rewrite <- (norm_neg b). rewrite (norm_ext (msub a b) (madd a (mneg b))); [apply norm_add|].
  intros i j _ _. unfold msub, madd, mneg. ring.
Qed.
Lemma norm_mul : forall a b, norm n (mmul n a b) <= norm n a * norm n b.
Proof.
  intros a b. unfold norm at 1 2. rewrite <- total_scale_r. apply total_mono. intros i _.
  apply Rle_trans with (total n (fun j => total n (fun k => Rabs (a i k) * Rabs (b k j)))).
  { apply total_mono. intros j _. unfold mmul. eapply Rle_trans; [apply total_abs|]. right. apply total_ext. intros k _. apply Rabs_mult. }
  rewrite total_swap, <- total_scale_r. apply total_mono. intros k Hk. rewrite total_scale.
  apply Rmult_le_compat_l; [apply Rabs_pos|].
  apply (total_ge_one n (fun k => total n (fun j => Rabs (b k j))) k); [intros; apply total_nonneg; intros; apply Rabs_pos|exact Hk].
Qed.
Lemma norm_one : norm n ident = INR n.
Proof.
  unfold norm. rewrite (total_ext n _ (fun _ => 1)).
  - induction n as [|m IH]; [reflexivity|]. rewrite S_INR. cbn [total]. rewrite IH. reflexivity.
  - intros i Hi. rewrite (total_one n i); [unfold ident; rewrite Nat.eqb_refl; apply Rabs_R1|exact Hi|].
    intros j _ Nj. unfold ident. destruct (Nat.eqb_spec i j); [congruence|apply Rabs_R0].
Qed.
End Norm.

(* ------------------------------------------------------------------------- *)
(** * Small changes of a nonsingular matrix *)
Section Neumann.
Variable n : nat.
Local Instance o : @Ring_ops mat zmat ident madd (mmul n) msub mneg (meq n) := mat_ops n.
Local Instance r : Ring (Ro := o) := mat_ring n.
Notation "a =~ b" := (meq n a b) (at level 70).
Notation "a ** b" := (mmul n a b) (at level 40, left associativity).
Notation "a +++ b" := (madd a b) (at level 50, left associativity).
Variable x : mat.
Hypothesis Small : norm n x <= / 2.
Fixpoint power (k : nat) : mat := match k with O => ident | S k => power k ** x end.
Fixpoint series (k : nat) : mat := match k with O => zmat | S k => series k +++ power k end.
Lemma power_comm : forall k, x ** power k =~ power k ** x.
Proof.
  induction k as [|k IH]; cbn [power]; [non_commutative_ring|].
  transitivity (x ** power k ** x); [non_commutative_ring|]. rewrite IH. reflexivity.
Qed.
Lemma series_l : forall k, msub ident x ** series k =~ msub ident (power k).
Proof.
  induction k as [|k IH]; cbn [series power]; [non_commutative_ring|].
  transitivity (msub ident x ** series k +++ (msub (power k) (x ** power k))); [non_commutative_ring|].
  rewrite IH, power_comm. non_commutative_ring.
Qed.
Lemma series_r : forall k, series k ** msub ident x =~ msub ident (power k).
Proof.
  induction k as [|k IH]; cbn [series power]; [non_commutative_ring|].
  transitivity (series k ** msub ident x +++ (msub (power k) (power k ** x))); [non_commutative_ring|].
  rewrite IH. non_commutative_ring.
Qed.
Lemma power_small : forall k, norm n (power k) <= INR n / 2 ^ k.
Proof.
  induction k as [|k IH]; cbn [power pow]; [rewrite norm_one; lra|].
  eapply Rle_trans; [apply norm_mul|]. pose proof (norm_nonneg n (power k)). pose proof (norm_nonneg n x).
  apply Rle_trans with (INR n / 2 ^ k * / 2); [apply Rmult_le_compat; assumption|]. right. field. apply pow_nonzero. lra.
Qed.
Lemma series_gap : forall k m, norm n (msub (series (k + m)) (series k)) <= 2 * INR n / 2 ^ k - 2 * INR n / 2 ^ (k + m).
Proof.
  intros k. induction m as [|m IH].
  - rewrite Nat.add_0_r. rewrite (norm_ext n _ zmat) by non_commutative_ring. unfold norm.
    rewrite total_zero; [lra|]. intros i _. apply total_zero. intros j _. unfold zmat. apply Rabs_R0.
  - replace (k + S m)%nat with (S (k + m)) by lia. cbn [series].
    rewrite (norm_ext n _ (msub (series (k + m)) (series k) +++ power (k + m))) by non_commutative_ring.
    eapply Rle_trans; [apply norm_add|]. pose proof (power_small (k + m)) as H.
    assert (2 * INR n / 2 ^ S (k + m) = INR n / 2 ^ (k + m)) as E by (cbn [pow]; field; apply pow_nonzero; lra).
    rewrite E. assert (2 * INR n / 2 ^ (k + m) = 2 * (INR n / 2 ^ (k + m))) as E2 by (unfold Rdiv; ring). rewrite E2 in IH. lra.
Qed.
Lemma series_cauchy : forall i j, (i < n)%nat -> (j < n)%nat -> Cauchy_crit (fun k => series k i j).
Proof.
  intros i j Hi Hj e He. destruct (cv_pow_half (2 * INR n) (e / 2) ltac:(lra)) as [N HN]. exists N.
  assert (forall k, (N <= k)%nat -> Rabs (series k i j - series N i j) < e / 2) as K.
  { intros k Hk. replace k with (N + (k - N))%nat by lia.
    eapply Rle_lt_trans; [exact (norm_entry n (msub (series (N + (k - N))) (series N)) i j Hi Hj)|].
    eapply Rle_lt_trans; [apply series_gap|]. specialize (HN N (le_n N)). unfold R_dist in HN. rewrite Rminus_0_r in HN.
    assert (0 <= 2 * INR n / 2 ^ (N + (k - N))) as Z.
    { apply Rmult_le_pos; [pose proof (pos_INR n); lra|]. left. apply Rinv_0_lt_compat, pow_lt. lra. }
    pose proof (Rle_abs (2 * INR n / 2 ^ N)). lra. }
  intros k m Hk Hm. unfold R_dist. pose proof (K k Hk) as A. pose proof (K m Hm) as B.
  replace (series k i j - series m i j) with ((series k i j - series N i j) - (series m i j - series N i j)) by ring.
  eapply Rle_lt_trans; [apply Rabs_triang|]. rewrite Rabs_Ropp. lra.
Qed.
Definition limit : mat := fun i j =>
  match lt_dec i n, lt_dec j n with
  | left a, left b => proj1_sig (R_complete _ (series_cauchy i j a b))
  | _, _ => 0
  end.
Lemma limit_cv : forall i j, (i < n)%nat -> (j < n)%nat -> Un_cv (fun k => series k i j) (limit i j).
Proof.
  intros i j Hi Hj. unfold limit. destruct (lt_dec i n) as [a|]; [|contradiction]. destruct (lt_dec j n) as [b|]; [|contradiction].
  exact (proj2_sig (R_complete _ (series_cauchy i j a b))).
Qed.
Lemma power_cv : forall i j, (i < n)%nat -> (j < n)%nat -> Un_cv (fun k => msub ident (power k) i j) (ident i j).
Proof.
  intros i j Hi Hj e He. destruct (cv_pow_half (INR n) e He) as [N HN]. exists N. intros k Hk. specialize (HN k Hk).
  unfold R_dist, msub in *. rewrite Rminus_0_r in HN. replace (ident i j - power k i j - ident i j) with (- power k i j) by ring.
  rewrite Rabs_Ropp. eapply Rle_lt_trans; [apply (norm_entry n (power k) i j Hi Hj)|].
  eapply Rle_lt_trans; [apply power_small|]. eapply Rle_lt_trans; [apply Rle_abs|exact HN].
Qed.
Lemma cv_const : forall c, Un_cv (fun _ => c) c.
Proof. intros c e He. exists 0%nat. intros k _. unfold R_dist. rewrite Rminus_diag_eq, Rabs_R0; [exact He|reflexivity]. Qed.
Lemma cv_total : forall m (f : nat -> nat -> R) l, (forall k, (k < m)%nat -> Un_cv (fun s => f s k) (l k)) ->
  Un_cv (fun s => total m (f s)) (total m l).
Proof.
  induction m as [|m IH]; intros f l H; cbn [total]; [apply cv_const|].
  apply CV_plus; [apply IH; intros k Hk; apply H; lia|apply H; lia].
Qed.
Lemma cv_eq : forall (f g : nat -> R) a b, (forall k, f k = g k) -> Un_cv f a -> Un_cv g b -> a = b.
Proof.
  intros f g a b E A B. apply (UL_sequence f); [exact A|]. intros e He. destruct (B e He) as [N HN]. exists N. intros k Hk.
  rewrite E. exact (HN k Hk).
Qed.
Lemma neumann : nonsingular n (msub ident x).
Proof.
  exists limit. split; intros i j Hi Hj.
  - apply (cv_eq (fun s => total n (fun k => msub ident x i k * series s k j)) (fun s => msub ident (power s) i j)).
    + intros s. exact (series_l s i j Hi Hj).
    + apply cv_total. intros k Hk. apply CV_mult; [apply cv_const|apply limit_cv; assumption].
    + apply power_cv; assumption.
  - apply (cv_eq (fun s => total n (fun k => series s i k * msub ident x k j)) (fun s => msub ident (power s) i j)).
    + intros s. exact (series_r s i j Hi Hj).
    + apply cv_total. intros k Hk. apply CV_mult; [apply limit_cv; assumption|apply cv_const].
    + apply power_cv; assumption.
Qed.
End Neumann.

Section Close.
Variable n : nat.
Local Instance o2 : @Ring_ops mat zmat ident madd (mmul n) msub mneg (meq n) := mat_ops n.
Local Instance r2 : Ring (Ro := o2) := mat_ring n.
Notation "a =~ b" := (meq n a b) (at level 70).
Notation "a ** b" := (mmul n a b) (at level 40, left associativity).
Notation "a +++ b" := (madd a b) (at level 50, left associativity).
Lemma close : forall m0 p m, m0 ** p =~ ident -> p ** m0 =~ ident -> norm n p * norm n (msub m m0) <= / 2 -> nonsingular n m.
Proof.
  intros m0 p m P1 P2 H.
  assert (norm n (p ** msub m0 m) <= / 2) as S.
  { eapply Rle_trans; [apply norm_mul|]. rewrite <- (norm_neg n (msub m0 m)), (norm_ext n (mneg (msub m0 m)) (msub m m0)) by non_commutative_ring. exact H. }
  destruct (neumann n _ S) as (q & Q1 & Q2). rewrite product_meq in Q1, Q2.
  assert (m =~ m0 ** msub ident (p ** msub m0 m)) as E.
  { transitivity (msub m0 ((m0 ** p) ** msub m0 m)); [rewrite P1; non_commutative_ring|non_commutative_ring]. }
  exists (q ** p). split; rewrite product_meq; rewrite E.
  - transitivity (m0 ** (msub ident (p ** msub m0 m) ** q) ** p); [non_commutative_ring|]. rewrite Q1, mmul_1_r. exact P1.
  - transitivity (q ** ((p ** m0) ** msub ident (p ** msub m0 m))); [non_commutative_ring|]. rewrite P2, mmul_1_l. exact Q2.
Qed.
End Close.

(* ------------------------------------------------------------------------- *)
(** * Orders of magnitude near 0 *)
Definition near (P : R -> Prop) : Prop := exists d, 0 < d /\ forall h, Rabs h < d -> P h.
Lemma near_and : forall P Q, near P -> near Q -> near (fun h => P h /\ Q h).
Proof.
  intros P Q (d & D & H) (e & E & K). exists (Rmin d e). split; [apply Rmin_pos; assumption|].
  intros h Hh. pose proof (Rmin_l d e). pose proof (Rmin_r d e). split; [apply H|apply K]; lra.
Qed.
Lemma near_imp : forall (P Q : R -> Prop), (forall h, P h -> Q h) -> near P -> near Q.
Proof. intros P Q I (d & D & H). exists d. split; [exact D|]. intros h Hh. apply I, H, Hh. Qed.
Lemma near_small : forall k, 0 <= k -> forall e, 0 < e -> near (fun h => k * Rabs h <= e).
Proof.
  intros k K e E. exists (e / (k + 1)). split; [apply Rdiv_lt_0_compat; lra|]. intros h Hh.
  pose proof (Rabs_pos h). apply Rle_trans with ((k + 1) * Rabs h); [nra|].
  apply Rle_trans with ((k + 1) * (e / (k + 1))); [apply Rmult_le_compat_l; lra|]. right. field. lra.
Qed.
Definition little (f : R -> R) : Prop := forall e, 0 < e -> near (fun h => f h <= e * Rabs h).
Definition big (f : R -> R) : Prop := exists k, 0 <= k /\ near (fun h => f h <= k * Rabs h).
Lemma little_add : forall f g, little f -> little g -> little (fun h => f h + g h).
Proof. intros f g F G e E. refine (near_imp _ _ _ (near_and _ _ (F (e / 2) ltac:(lra)) (G (e / 2) ltac:(lra)))). intros h [X Y]. lra. Qed.
Lemma little_scale : forall f c, 0 <= c -> little f -> little (fun h => c * f h).
Proof.
  intros f c C F e E. refine (near_imp _ _ _ (F (e / (c + 1)) ltac:(apply Rdiv_lt_0_compat; lra))). intros h X.
  pose proof (Rabs_pos h). apply Rle_trans with (c * (e / (c + 1) * Rabs h)); [apply Rmult_le_compat_l; assumption|].
  assert (c * (e / (c + 1)) <= e) as Y.
  { apply Rle_trans with ((c + 1) * (e / (c + 1))); [apply Rmult_le_compat_r; [left; apply Rdiv_lt_0_compat; lra|lra]|right; field; lra]. }
  rewrite <- Rmult_assoc. apply Rmult_le_compat_r; assumption.
Qed.
Lemma little_le : forall f g, near (fun h => f h <= g h) -> little g -> little f.
Proof. intros f g L G e E. refine (near_imp _ _ _ (near_and _ _ L (G e E))). intros h [X Y]. lra. Qed.
Lemma big_mul : forall f g, (forall h, 0 <= f h) -> (forall h, 0 <= g h) -> big f -> big g -> little (fun h => f h * g h).
Proof.
  intros f g Pf Pg (k & K & F) (l & L & G) e E.
  refine (near_imp _ _ _ (near_and _ _ (near_and _ _ F G) (near_small (k * l) ltac:(apply Rmult_le_pos; assumption) e E))).
  intros h [[X Y] Z]. pose proof (Rabs_pos h). apply Rle_trans with ((k * Rabs h) * (l * Rabs h)); [apply Rmult_le_compat; auto|].
  apply Rle_trans with (k * l * Rabs h * Rabs h); [right; ring|apply Rmult_le_compat_r; assumption].
Qed.
Lemma big_add : forall f g, big f -> big g -> big (fun h => f h + g h).
Proof.
  intros f g (k & K & F) (l & L & G). exists (k + l). split; [lra|]. refine (near_imp _ _ _ (near_and _ _ F G)). intros h [X Y]. lra.
Qed.
Lemma big_scale : forall f c, 0 <= c -> big f -> big (fun h => c * f h).
Proof.
  intros f c C (k & K & F). exists (c * k). split; [apply Rmult_le_pos; assumption|]. refine (near_imp _ _ _ F). intros h X.
  rewrite Rmult_assoc. apply Rmult_le_compat_l; assumption.
Qed.
Lemma big_le : forall f g, near (fun h => f h <= g h) -> big g -> big f.
Proof. intros f g L (k & K & G). exists k. split; [exact K|]. refine (near_imp _ _ _ (near_and _ _ L G)). intros h [X Y]. lra. Qed.

(* ------------------------------------------------------------------------- *)
(** * Derivatives *)
Section Calculus.
Variable n : nat.
Local Instance o3 : @Ring_ops mat zmat ident madd (mmul n) msub mneg (meq n) := mat_ops n.
Local Instance r3 : Ring (Ro := o3) := mat_ring n.
Notation "a =~ b" := (meq n a b) (at level 70).
Notation "a ** b" := (mmul n a b) (at level 40, left associativity).
Notation "a +++ b" := (madd a b) (at level 50, left associativity).
Definition mscale (h : R) (a : mat) : mat := fun i j => h * a i j.
Definition gap (f : R -> mat) (p h : R) : mat := msub (f (p + h)) (f p).
Definition rest (f : R -> mat) (p : R) (a : mat) (h : R) : mat := msub (gap f p h) (mscale h a).

Lemma total_little : forall m (f : nat -> R -> R), (forall k, (k < m)%nat -> little (f k)) -> little (fun h => total m (fun k => f k h)).
Proof.
  induction m as [|m IH]; intros f H.
  - intros e E. exists 1. split; [lra|]. intros h _. cbn [total]. pose proof (Rabs_pos h). nra.
  - cbn [total]. apply little_add; [apply IH; intros k Hk; apply H; lia|apply H; lia].
Qed.
Lemma deriv_little : forall f p l, derivable_pt_lim f p l <-> little (fun h => Rabs (f (p + h) - f p - h * l)).
Proof.
  intros f p l. split.
  - intros D e E. destruct (D e E) as [[d Hd] H]. exists d. split; [exact Hd|]. intros h Hh. cbn in H.
    destruct (Req_dec h 0) as [->|N].
    + replace (f (p + 0) - f p - 0 * l) with 0 by (rewrite Rplus_0_r; ring). rewrite Rabs_R0. lra.
    + specialize (H h N Hh). replace (f (p + h) - f p - h * l) with (((f (p + h) - f p) / h - l) * h) by (field; exact N).
      rewrite Rabs_mult. apply Rmult_le_compat_r; [apply Rabs_pos|lra].
  - intros L e E. destruct (L (e / 2) ltac:(lra)) as (d & Hd & H). exists (mkposreal d Hd). intros h N Hh. cbn in Hh.
    specialize (H h Hh). assert (0 < Rabs h) as P by (apply Rabs_pos_lt; exact N).
    replace ((f (p + h) - f p) / h - l) with ((f (p + h) - f p - h * l) * / h) by (field; exact N).
    rewrite Rabs_mult, Rabs_inv. apply Rle_lt_trans with (e / 2 * Rabs h * / Rabs h); [apply Rmult_le_compat_r; [left; apply Rinv_0_lt_compat; exact P|exact H]|].
    rewrite Rmult_assoc, Rinv_r by lra. lra.
Qed.
Lemma mderiv_little : forall f p a, mderiv n f p a <-> little (fun h => norm n (rest f p a h)).
Proof.
  intros f p a. split.
  - intros D. unfold norm. apply total_little. intros i Hi. apply total_little. intros j Hj.
    exact (proj1 (deriv_little _ p (a i j)) (D i j Hi Hj)).
  - intros L i j Hi Hj. apply deriv_little. eapply little_le; [|exact L]. exists 1. split; [lra|]. intros h _.
    exact (norm_entry n (rest f p a h) i j Hi Hj).
Qed.
Lemma norm_mscale : forall h a, norm n (mscale h a) = Rabs h * norm n a.
Proof.
  intros h a. unfold norm, mscale. rewrite <- total_scale. apply total_ext. intros i _. rewrite <- total_scale. apply total_ext.
  intros j _. apply Rabs_mult.
Qed.
Lemma gap_big : forall f p a, mderiv n f p a -> big (fun h => norm n (gap f p h)).
Proof.
  intros f p a D. apply mderiv_little in D. exists (norm n a + 1). split; [pose proof (norm_nonneg n a); lra|].
  refine (near_imp _ _ _ (D 1 ltac:(lra))). intros h X.
  rewrite (norm_ext n (gap f p h) (rest f p a h +++ mscale h a)) by (unfold rest; intros i j _ _; unfold madd, msub; ring).
  eapply Rle_trans; [apply norm_add|]. rewrite norm_mscale. lra.
Qed.
(** Solving a(t) m(t) = x(t) *)
Lemma quotient_deriv : forall (a m x : R -> mat) p q m' x',
  near (fun h => a (p + h) ** m (p + h) =~ x (p + h)) -> m p ** q =~ ident ->
  mderiv n m p m' -> mderiv n x p x' -> mderiv n a p (msub x' (a p ** m') ** q).
Proof.
  intros a m x p q m' x' E Q M X.
  assert (a p ** m p =~ x p) as E0.
  { destruct E as (d & D & E). specialize (E 0). rewrite Rplus_0_r in E. apply E. rewrite Rabs_R0. exact D. }
  assert (near (fun h => gap a p h =~ msub (msub (gap x p h) (a p ** gap m p h)) (gap a p h ** gap m p h) ** q)) as G.
  { refine (near_imp _ _ _ E). intros h Eh.
    transitivity (gap a p h ** (m p ** q)); [rewrite Q; non_commutative_ring|].
    transitivity (msub (msub (gap x p h) (a p ** gap m p h)) (gap a p h ** gap m p h) ** q +++
                  msub (msub (a (p + h) ** m (p + h)) (x (p + h))) (msub (a p ** m p) (x p)) ** q); [unfold gap; non_commutative_ring|].
    rewrite Eh, E0. non_commutative_ring. }
  pose proof (gap_big m p m' M) as BM. pose proof (gap_big x p x' X) as BX.
  assert (big (fun h => norm n (gap a p h))) as BA.
  { apply (big_le _ (fun h => (2 * norm n q) * (norm n (gap x p h) + norm n (a p) * norm n (gap m p h)))).
    - destruct BM as (k & K & BM). pose proof (norm_nonneg n q) as Nq.
      refine (near_imp _ _ _ (near_and _ _ (near_and _ _ G BM) (near_small (k * norm n q) ltac:(apply Rmult_le_pos; assumption) (/ 2) ltac:(lra)))).
      intros h [[Gh Mh] Sh].
      assert (norm n (gap a p h) <= (norm n (gap x p h) + norm n (a p) * norm n (gap m p h) + norm n (gap a p h) * norm n (gap m p h)) * norm n q) as L.
      { rewrite (norm_ext n _ _ Gh) at 1. eapply Rle_trans; [apply norm_mul|]. apply Rmult_le_compat_r; [exact Nq|].
        eapply Rle_trans; [apply norm_sub|]. apply Rplus_le_compat; [|apply norm_mul].
        eapply Rle_trans; [apply norm_sub|]. apply Rplus_le_compat_l, norm_mul. }
      assert (norm n (gap a p h) * (norm n (gap m p h) * norm n q) <= norm n (gap a p h) * / 2) as L2.
      { apply Rmult_le_compat_l; [apply norm_nonneg|]. apply Rle_trans with (k * Rabs h * norm n q); [apply Rmult_le_compat_r; assumption|lra]. }
      lra.
    - apply big_scale; [pose proof (norm_nonneg n q); lra|]. apply big_add; [exact BX|]. apply big_scale; [apply norm_nonneg|exact BM]. }
  apply mderiv_little. apply mderiv_little in M. apply mderiv_little in X.
  apply (little_le _ (fun h => norm n q * (norm n (rest x p x' h) + (norm n (a p) * norm n (rest m p m' h) + norm n (gap a p h) * norm n (gap m p h))))).
  - refine (near_imp _ _ _ G). intros h Gh.
    rewrite (norm_ext n _ ((msub (msub (rest x p x' h) (a p ** rest m p m' h)) (gap a p h ** gap m p h)) ** q)).
    + eapply Rle_trans; [apply norm_mul|]. rewrite Rmult_comm. apply Rmult_le_compat_l; [apply norm_nonneg|].
      eapply Rle_trans; [apply norm_sub|]. rewrite <- Rplus_assoc. apply Rplus_le_compat; [|apply norm_mul].
      eapply Rle_trans; [apply norm_sub|]. apply Rplus_le_compat_l, norm_mul.
    + unfold rest at 1.
      transitivity (msub (msub (msub (gap x p h) (a p ** gap m p h)) (gap a p h ** gap m p h) ** q) (mscale h (msub x' (a p ** m') ** q)));
        [apply msub_proper; [exact Gh|reflexivity]|].
      assert (forall u v, mscale h (u ** v) =~ mscale h u ** v) as S1.
      { intros u v i j _ _. unfold mscale, mmul. rewrite <- total_scale. apply total_ext. intros. ring. }
      assert (forall u v, mscale h (u ** v) =~ u ** mscale h v) as S2.
      { intros u v i j _ _. unfold mscale, mmul. rewrite <- total_scale. apply total_ext. intros. ring. }
      rewrite S1. assert (mscale h (msub x' (a p ** m')) =~ msub (mscale h x') (a p ** mscale h m')) as ->.
      { rewrite <- S2. intros i j _ _. unfold mscale, msub. ring. }
      unfold rest. non_commutative_ring.
  - apply little_scale; [apply norm_nonneg|]. apply little_add; [exact X|]. apply little_add.
    + apply little_scale; [apply norm_nonneg|exact M].
    + apply big_mul; [intros; apply norm_nonneg|intros; apply norm_nonneg|exact BA|exact BM].
Qed.

Lemma mderiv_ext : forall f p a b, a =~ b -> mderiv n f p a -> mderiv n f p b.
Proof. intros f p a b H D i j Hi Hj. rewrite <- H by assumption. exact (D i j Hi Hj). Qed.
Lemma mderiv_add : forall f g p a b, mderiv n f p a -> mderiv n g p b -> mderiv n (fun t => f t +++ g t) p (a +++ b).
Proof. intros f g p a b F G i j Hi Hj. apply dl_plus; [exact (F i j Hi Hj)|exact (G i j Hi Hj)]. Qed.
Lemma mderiv_mul : forall f g p a b, mderiv n f p a -> mderiv n g p b -> mderiv n (fun t => f t ** g t) p (a ** g p +++ f p ** b).
Proof.
  intros f g p a b F G i j Hi Hj. unfold mmul, madd. rewrite <- total_plus.
  apply (dl_total n (fun k t => f t i k * g t k j) p (fun k => a i k * g p k j + f p i k * b k j)).
  intros k Hk. apply dl_mult; [exact (F i k Hi Hk)|exact (G k j Hk Hj)].
Qed.
Lemma mderiv_i_sub : forall f p a, mderiv n f p a -> mderiv n (fun t => i_sub (f t)) p (mneg a).
Proof.
  intros f p a F i j Hi Hj. unfold i_sub, mneg.
  apply (dl_eq _ _ (0 - a i j)); [|ring]. apply dl_minus; [apply dl_const|exact (F i j Hi Hj)].
Qed.
Lemma vderiv_col : forall f p v, vderiv n f p v <-> mderiv n (fun t => col (f t)) p (col v).
Proof. intros f p v. split; [intros H i j Hi _; exact (H i Hi)|intros H i Hi; exact (H i i Hi Hi)]. Qed.
Lemma vderiv_add : forall f g p a b, vderiv n f p a -> vderiv n g p b -> vderiv n (fun t => vadd (f t) (g t)) p (vadd a b).
Proof. intros f g p a b F G i Hi. apply dl_plus; [exact (F i Hi)|exact (G i Hi)]. Qed.
Lemma vderiv_mv : forall f g p a b, mderiv n f p a -> vderiv n g p b -> vderiv n (fun t => mv n (f t) (g t)) p (vadd (mv n a (g p)) (mv n (f p) b)).
Proof.
  intros f g p a b F G i Hi. unfold mv, vadd. rewrite <- total_plus.
  apply (dl_total n (fun k t => f t i k * g t k) p (fun k => a i k * g p k + f p i k * b k)).
  intros k Hk. apply dl_mult; [exact (F i k Hi Hk)|exact (G k Hk)].
Qed.
Lemma vderiv_scale : forall f s p a, vderiv n f p a -> vderiv n (fun t => vscale s (f t)) p (vscale s a).
Proof.
  intros f s p a F i Hi. unfold vscale. apply (dl_eq _ _ (0 * f p i + s * a i)); [|ring].
  apply (dl_mult (fun _ => s) (fun t => f t i)); [apply dl_const|exact (F i Hi)].
Qed.
Variable solve : mat -> mat -> mat.
Hypothesis Solve : solver n solve.
Lemma solve_deriv : forall (m x : R -> mat) p q m' x', m p ** q =~ ident -> q ** m p =~ ident ->
  mderiv n m p m' -> mderiv n x p x' -> mderiv n (fun t => solve (m t) (x t)) p (msub x' (solve (m p) (x p) ** m') ** q).
Proof.
  intros m x p q m' x' Q1 Q2 M X. apply (quotient_deriv (fun t => solve (m t) (x t)) m x p q m' x'); try assumption.
  destruct (gap_big m p m' M) as (k & K & B).
  refine (near_imp _ _ _ (near_and _ _ B (near_small (norm n q * k) ltac:(apply Rmult_le_pos; [apply norm_nonneg|exact K]) (/ 2) ltac:(lra)))).
  intros h [Bh Sh]. apply Solve. apply (close n (m p) q); [exact Q1|exact Q2|].
  eapply Rle_trans; [apply Rmult_le_compat_l; [apply norm_nonneg|exact Bh]|]. lra.
Qed.
End Calculus.
