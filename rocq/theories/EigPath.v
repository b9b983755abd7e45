(** Distinct eigenvalues, and their eigenvectors, can be differentiated. *)
From Coq Require Import Reals Bool Arith Lia Lra Setoid Morphisms.
From Verif Require Import Base DeltaMSpec DeltaMProofs BeamProofs AddingModel AddingSpec AddingMat AddingDeriv AddingCalls RadianceModel RadianceProofs SingleProofs
  EigModel EigSpec EigMat EigCore EigProofs EigEnergy EigDSpec.
From Verif Require AddingAdjLoops.
Open Scope R_scope.

Lemma total_bound : forall n f b, (forall k, (k < n)%nat -> Rabs (f k) <= b) -> Rabs (total n f) <= INR n * b.
Proof.
  intros n f b H. eapply Rle_trans; [apply total_abs|].
  apply Rle_trans with (total n (fun _ => b)); [apply total_mono; exact H|].
  clear H. induction n as [|n IH]; [cbn; lra|]. rewrite S_INR. cbn [total]. lra.
Qed.
Lemma around_near_iff : forall p P, around p P <-> near (fun h => P (p + h)).
Proof.
  intros p P. split; intros (d & D & H); exists d; (split; [exact D|]).
  - intros h Hh. apply H. replace (p + h - p) with h by ring. exact Hh.
  - intros t Ht. specialize (H (t - p) Ht). replace (p + (t - p)) with t in H by ring. exact H.
Qed.
(** The product with a factor that vanishes *)
Lemma dl_vanish : forall f g p f', derivable_pt_lim f p f' -> f p = 0 -> big (fun h => Rabs (g (p + h) - g p)) ->
  derivable_pt_lim (fun s => f s * g s) p (f' * g p).
Proof.
  intros f g p f' F Z G. rewrite deriv_little in *.
  assert (big (fun h => Rabs (f (p + h)))) as FB.
  { exists (Rabs f' + 1). split; [pose proof (Rabs_pos f'); lra|]. refine (near_imp _ _ _ (F 1 ltac:(lra))). intros h H. rewrite Z in H.
    replace (f (p + h)) with ((f (p + h) - 0 - h * f') + h * f') by ring. eapply Rle_trans; [apply Rabs_triang|]. rewrite (Rabs_mult h f'). lra. }
  apply (little_le _ (fun h => Rabs (g p) * Rabs (f (p + h) - f p - h * f') + Rabs (f (p + h)) * Rabs (g (p + h) - g p))).
  - exists 1. split; [lra|]. intros h _. rewrite Z, <- !Rabs_mult. 
    replace (f (p + h) * g (p + h) - 0 * g p - h * (f' * g p)) with (g p * (f (p + h) - 0 - h * f') + f (p + h) * (g (p + h) - g p)) by ring. apply Rabs_triang.
  - apply little_add; [apply little_scale; [apply Rabs_pos|exact F]|]. apply big_mul; [intros; apply Rabs_pos|intros; apply Rabs_pos|exact FB|exact G].
Qed.
Lemma nonsingular_around : forall n f p f', mderiv n f p f' -> nonsingular n (f p) -> around p (fun s => nonsingular n (f s)).
Proof.
  intros n f p f' D (q & Q1 & Q2). rewrite product_meq in Q1, Q2. apply around_near_iff.
  destruct (gap_big n f p f' D) as (k & K & N). 
  pose proof (near_small (norm n q * k) (Rmult_le_pos _ _ (norm_nonneg n q) K) (/ 2) ltac:(lra)) as S.
  refine (near_imp _ _ _ (near_and _ _ N S)). intros h (A & B).
  apply (close n (f p) q (f (p + h)) Q1 Q2). apply Rle_trans with (norm n q * (k * Rabs h)); [|lra].
  apply Rmult_le_compat_l; [apply norm_nonneg|exact A].
Qed.

(** * A nearly diagonal matrix *)
Section Fix.
Variable n : nat.
Variable k : nat.
Hypothesis Hk : (k < n)%nat.
Variable g : vec.          (* differences of eigenvalues *)
Variables (ga h : R).
Hypothesis Gap : forall j, (j < n)%nat -> j <> k -> ga <= Rabs (g j).
Hypothesis Gp : 0 < ga.
Hypothesis Small : 6 * (INR n * h) <= ga.
Variable m : mat.
Hypothesis Mb : forall i j, (i < n)%nat -> (j < n)%nat -> Rabs (m i j) <= h.
Definition step (u : vec) : vec := fun j => if Nat.eqb j k then 1 else (mv n m u j - u j * mv n m u k) / g j.
Fixpoint approx (i : nat) : vec := match i with O => fun j => if Nat.eqb j k then 1 else 0 | S i => step (approx i) end.
Lemma Hp : 0 <= INR n * h.
Proof. apply Rmult_le_pos; [apply pos_INR|]. eapply Rle_trans; [apply Rabs_pos|apply (Mb k k Hk Hk)]. Qed.
Lemma mv_bound : forall v b c i, (i < n)%nat -> 0 <= b -> (forall i j, (i < n)%nat -> (j < n)%nat -> Rabs (m i j) <= b) -> (forall j, (j < n)%nat -> Rabs (v j) <= c) -> Rabs (mv n m v i) <= INR n * (b * c).
Proof.
  intros v b c i Hi Hb B C. unfold mv. apply total_bound. intros j Hj. rewrite Rabs_mult.
  apply Rmult_le_compat; [apply Rabs_pos|apply Rabs_pos|apply B; assumption|apply C; assumption].
Qed.
Lemma h_pos : 0 <= h. Proof. eapply Rle_trans; [apply Rabs_pos|apply (Mb k k Hk Hk)]. Qed.
Lemma div_bound : forall a b j, (j < n)%nat -> j <> k -> Rabs a <= b -> Rabs (a / g j) <= b / ga.
Proof.
  intros a b j Hj NE A. pose proof (Gap j Hj NE) as G. unfold Rdiv. rewrite Rabs_mult, Rabs_inv.
  apply Rmult_le_compat; [apply Rabs_pos|left; apply Rinv_0_lt_compat; lra|exact A|apply Rinv_le_contravar; assumption].
Qed.
Lemma approx_bound : forall i j, (j < n)%nat -> Rabs (approx i j) <= 1.
Proof.
  induction i as [|i IH]; intros j Hj; cbn [approx].
  - destruct (Nat.eqb j k); rewrite ?Rabs_R1, ?Rabs_R0; lra.
  - unfold step. destruct (Nat.eqb j k) eqn:E; [rewrite Rabs_R1; lra|]. apply Nat.eqb_neq in E.
    pose proof Hp as HP.
    eapply Rle_trans; [apply (div_bound _ (2 * (INR n * h)) j Hj E)|].
    + eapply Rle_trans; [apply Rabs_triang|]. rewrite Rabs_Ropp, Rabs_mult.
      pose proof (mv_bound (approx i) h 1 j Hj h_pos Mb IH) as A. pose proof (mv_bound (approx i) h 1 k Hk h_pos Mb IH) as B.
      assert (Rabs (approx i j) * Rabs (mv n m (approx i) k) <= 1 * (INR n * (h * 1))) by (apply Rmult_le_compat; try apply Rabs_pos; [apply IH; exact Hj|exact B]). lra.
    + apply Rmult_le_reg_r with ga; [exact Gp|]. unfold Rdiv. rewrite Rmult_assoc, Rinv_l by lra. lra.
Qed.
Lemma step_lip : forall u v d, (forall j, (j < n)%nat -> Rabs (u j) <= 1) -> (forall j, (j < n)%nat -> Rabs (v j) <= 1) -> 0 <= d ->
  (forall j, (j < n)%nat -> Rabs (u j - v j) <= d) -> forall j, (j < n)%nat -> Rabs (step u j - step v j) <= d / 2.
Proof.
  intros u v d Bu Bv Dp D j Hj. unfold step. destruct (Nat.eqb j k) eqn:E; [rewrite Rminus_diag_eq, Rabs_R0 by reflexivity; lra|]. apply Nat.eqb_neq in E.
  replace ((mv n m u j - u j * mv n m u k) / g j - (mv n m v j - v j * mv n m v k) / g j) with
    ((mv n m (fun i => u i - v i) j - (u j - v j) * mv n m u k - v j * mv n m (fun i => u i - v i) k) / g j).
  2:{ rewrite !mv_minus. unfold Rdiv. ring. }
  eapply Rle_trans; [apply (div_bound _ (3 * (INR n * h) * d) j Hj E)|].
  - pose proof (mv_bound (fun i => u i - v i) h d j Hj h_pos Mb D) as A. pose proof (mv_bound (fun i => u i - v i) h d k Hk h_pos Mb D) as B.
    pose proof (mv_bound u h 1 k Hk h_pos Mb Bu) as C.
    assert (Rabs (u j - v j) * Rabs (mv n m u k) <= d * (INR n * (h * 1))) by (apply Rmult_le_compat; try apply Rabs_pos; [apply D; exact Hj|exact C]).
    assert (Rabs (v j) * Rabs (mv n m (fun i => u i - v i) k) <= 1 * (INR n * (h * d))) by (apply Rmult_le_compat; try apply Rabs_pos; [apply Bv; exact Hj|exact B]).
    unfold Rminus at 1 2. eapply Rle_trans; [apply Rabs_triang|]. rewrite Rabs_Ropp, (Rabs_mult (v j)).
    apply Rle_trans with (Rabs (mv n m (fun i => u i - v i) j) + Rabs (u j - v j) * Rabs (mv n m u k) + Rabs (v j) * Rabs (mv n m (fun i => u i - v i) k)).
    + apply Rplus_le_compat_r. eapply Rle_trans; [apply Rabs_triang|]. rewrite Rabs_Ropp, Rabs_mult. unfold Rminus. lra.
    + lra.
  - apply Rmult_le_reg_r with ga; [exact Gp|]. unfold Rdiv. rewrite Rmult_assoc, Rinv_l by lra.
    apply (Rmult_le_compat_r d) in Small; [|exact Dp]. lra.
Qed.
Lemma approx_step : forall i j, (j < n)%nat -> Rabs (approx (S i) j - approx i j) <= / 2 ^ i.
Proof.
  induction i as [|i IH]; intros j Hj.
  - rewrite pow_O, Rinv_1. cbn [approx]. unfold step. destruct (Nat.eqb j k) eqn:E; [rewrite Rminus_diag_eq, Rabs_R0 by reflexivity; lra|].
    pose proof (approx_bound 1 j Hj) as A. cbn [approx] in A. unfold step in A. rewrite E in A. rewrite Rminus_0_r. exact A.
  - cbn [approx]. replace (/ 2 ^ S i) with (/ 2 ^ i / 2) by (cbn [pow]; field; apply pow_nonzero; lra).
    apply step_lip; [exact (approx_bound (S i))|exact (approx_bound i)|left; apply Rinv_0_lt_compat, pow_lt; lra|exact IH|exact Hj].
Qed.
Lemma approx_gap : forall i l j, (j < n)%nat -> Rabs (approx (i + l) j - approx i j) <= 2 / 2 ^ i - 2 / 2 ^ (i + l).
Proof.
  induction l as [|l IH]; intros j Hj.
  - rewrite Nat.add_0_r, !Rminus_diag_eq, Rabs_R0 by reflexivity. lra.
  - replace (i + S l)%nat with (S (i + l)) by lia. specialize (IH j Hj). pose proof (approx_step (i + l) j Hj) as St.
    replace (2 / 2 ^ S (i + l)) with (/ 2 ^ (i + l)) by (cbn [pow]; field; apply pow_nonzero; lra).
    replace (2 / 2 ^ (i + l)) with (2 * / 2 ^ (i + l)) in IH by (unfold Rdiv; ring).
    replace (approx (S (i + l)) j - approx i j) with ((approx (S (i + l)) j - approx (i + l)%nat j) + (approx (i + l)%nat j - approx i j)) by ring.
    eapply Rle_trans; [apply Rabs_triang|]. lra.
Qed.
Lemma approx_cauchy : forall j, (j < n)%nat -> Cauchy_crit (fun i => approx i j).
Proof.
  intros j Hj e He. destruct (cv_pow_half 2 (e / 2) ltac:(lra)) as [N HN]. exists N.
  assert (forall i, (N <= i)%nat -> Rabs (approx i j - approx N j) < e / 2) as K.
  { intros i Hi. replace i with (N + (i - N))%nat by lia. eapply Rle_lt_trans; [apply approx_gap; exact Hj|].
    specialize (HN N (le_n N)). unfold R_dist in HN. rewrite Rminus_0_r in HN.
    assert (0 <= 2 / 2 ^ (N + (i - N))) as Z. { apply Rmult_le_pos; [lra|]. left. apply Rinv_0_lt_compat, pow_lt. lra. }
    pose proof (Rle_abs (2 / 2 ^ N)). lra. }
  intros a b Ha Hb. unfold R_dist. pose proof (K a Ha) as A. pose proof (K b Hb) as B.
  replace (approx a j - approx b j) with ((approx a j - approx N j) - (approx b j - approx N j)) by ring.
  eapply Rle_lt_trans; [apply Rabs_triang|]. rewrite Rabs_Ropp. lra.
Qed.
Definition fixed : vec := fun j => match lt_dec j n with left a => proj1_sig (R_complete _ (approx_cauchy j a)) | _ => 0 end.
Lemma fixed_cv : forall j, (j < n)%nat -> Un_cv (fun i => approx i j) (fixed j).
Proof. intros j Hj. unfold fixed. destruct (lt_dec j n) as [a|]; [|contradiction]. exact (proj2_sig (R_complete _ (approx_cauchy j a))). Qed.
Lemma fixed_bound : forall j, (j < n)%nat -> Rabs (fixed j) <= 1.
Proof.
  intros j Hj. apply Rnot_lt_le. intros L. destruct (fixed_cv j Hj (Rabs (fixed j) - 1) ltac:(lra)) as (N & HN). specialize (HN N (le_n N)). unfold R_dist in HN.
  pose proof (approx_bound N j Hj). pose proof (Rabs_triang (approx N j) (- (approx N j - fixed j))) as T.
  replace (approx N j + - (approx N j - fixed j)) with (fixed j) in T by ring. rewrite Rabs_Ropp in T. lra.
Qed.
Lemma cv_shift : forall f l, Un_cv f l -> Un_cv (fun i => f (S i)) l.
Proof. intros f l H e He. destruct (H e He) as (N & HN). exists N. intros i Hi. apply HN. lia. Qed.
Lemma fixed_mv : forall i, Un_cv (fun s => mv n m (approx s) i) (mv n m fixed i).
Proof. intros i. unfold mv. apply (cv_total n (fun s j => m i j * approx s j)). intros j Hj. apply CV_mult; [apply cv_const|apply fixed_cv; exact Hj]. Qed.
Lemma fixed_k : fixed k = 1.
Proof.
  apply (UL_sequence (fun i => approx i k)); [apply fixed_cv; exact Hk|]. intros e He. exists 0%nat. intros i _. unfold R_dist.
  destruct i; cbn [approx]; unfold step; rewrite Nat.eqb_refl, Rminus_diag_eq, Rabs_R0; auto.
Qed.
Lemma fixed_eq : forall j, (j < n)%nat -> j <> k -> g j * fixed j = mv n m fixed j - fixed j * mv n m fixed k.
Proof.
  intros j Hj NE. assert (g j <> 0) as G0. { intros Z. pose proof (Gap j Hj NE) as G. rewrite Z, Rabs_R0 in G. lra. }
  apply Nat.eqb_neq in NE.
  apply (cv_eq (fun i => g j * approx (S i) j) (fun i => mv n m (approx i) j - approx i j * mv n m (approx i) k)).
  - intros i. cbn [approx]. unfold step. rewrite NE. field. exact G0.
  - apply CV_mult; [apply cv_const|]. apply (cv_shift (fun i => approx i j)). apply fixed_cv. exact Hj.
  - apply CV_minus; [apply fixed_mv|]. apply CV_mult; [apply fixed_cv; exact Hj|apply fixed_mv].
Qed.
Lemma fixed_small : forall b, 0 <= b -> (forall i j, (i < n)%nat -> (j < n)%nat -> Rabs (m i j) <= b) -> forall j, (j < n)%nat -> j <> k -> Rabs (fixed j) <= 2 * INR n * b / ga.
Proof.
  intros b Bp B j Hj NE. pose proof (fixed_eq j Hj NE) as E. pose proof (Gap j Hj NE) as G.
  replace (fixed j) with ((mv n m fixed j - fixed j * mv n m fixed k) / g j).
  2:{ rewrite <- E. field. intros Z. rewrite Z, Rabs_R0 in G. lra. }
  apply div_bound; [exact Hj|exact NE|]. 
  pose proof (mv_bound fixed b 1 j Hj Bp B fixed_bound) as A. pose proof (mv_bound fixed b 1 k Hk Bp B fixed_bound) as C.
  assert (Rabs (fixed j) * Rabs (mv n m fixed k) <= 1 * (INR n * (b * 1))) by (apply Rmult_le_compat; try apply Rabs_pos; [apply fixed_bound; exact Hj|exact C]).
  eapply Rle_trans; [apply Rabs_triang|]. rewrite Rabs_Ropp, Rabs_mult. lra.
Qed.
End Fix.

(** * The smallest distance *)
Lemma least : forall n (f : nat -> R), (forall k, (k < n)%nat -> 0 < f k) -> exists d, 0 < d /\ forall k, (k < n)%nat -> d <= f k.
Proof.
  induction n as [|n IH]; intros f H; [exists 1; split; [lra|lia]|].
  destruct (IH f ltac:(auto)) as (d & D & L). pose proof (H n ltac:(lia)) as P.
  exists (Rmin d (f n)). split; [apply Rmin_glb_lt; assumption|]. intros k Hk.
  destruct (Nat.eq_dec k n) as [->|NE]; [apply Rmin_r|]. eapply Rle_trans; [apply Rmin_l|apply L; lia].
Qed.
Lemma distance : forall n lam, distinct n lam -> exists d, 0 < d /\ forall j k, (j < n)%nat -> (k < n)%nat -> j <> k -> d <= Rabs (lam k - lam j).
Proof.
  intros n lam D.
  assert (forall k, exists d, 0 < d /\ ((k < n)%nat -> forall j, (j < n)%nat -> j <> k -> d <= Rabs (lam k - lam j))) as A.
  { intros k. destruct (lt_dec k n) as [Hk|NH]; [|exists 1; split; [lra|contradiction]].
    destruct (least n (fun j => if Nat.eqb j k then 1 else Rabs (lam k - lam j))) as (d & P & L).
    - intros j Hj. destruct (Nat.eqb j k) eqn:E; [lra|]. apply Nat.eqb_neq in E. apply Rabs_pos_lt. pose proof (D k j Hk Hj ltac:(auto)). lra.
    - exists d. split; [exact P|]. intros _ j Hj NE. specialize (L j Hj). apply Nat.eqb_neq in NE. rewrite NE in L. exact L. }
  assert (forall m, exists d, 0 < d /\ forall k, (k < m)%nat -> (k < n)%nat -> forall j, (j < n)%nat -> j <> k -> d <= Rabs (lam k - lam j)) as B.
  { induction m as [|m (d & P & L)]; [exists 1; split; [lra|lia]|]. destruct (A m) as (c & C & M). exists (Rmin d c). split; [apply Rmin_glb_lt; assumption|].
    intros k K Hk j Hj NE. destruct (Nat.eq_dec k m) as [->|NM]; [eapply Rle_trans; [apply Rmin_r|apply M; assumption]|].
    eapply Rle_trans; [apply Rmin_l|apply L; [lia|assumption..]]. }
  destruct (B n) as (d & P & L). exists d. split; [exact P|]. intros j k Hj Hk NE. apply L; assumption.
Qed.

(** * The path *)
Section Path.
Variable n : nat.
Notation "a ** b" := (mmul n a b) (at level 40, left associativity).
Notation "a =~ b" := (meq n a b) (at level 70).
Notation "a *v v" := (mv n a v) (at level 40, left associativity).
Lemma assoc : forall a b c, a ** (b ** c) =~ (a ** b) ** c.
Proof. intros a b c i j _ _. apply mmul_assoc. Qed.
Variables (m : R -> mat) (p : R) (m' : mat).
Hypothesis Dm : mderiv n m p m'.
Variable e0 : vec * mat.
Hypothesis Sys : eigensystem n (m p) e0.
Notation lam := (fst e0).
Notation V := (snd e0).
Variable q : mat.
Hypothesis Q1 : V ** q =~ ident.
Hypothesis Q2 : q ** V =~ ident.
Variables (ga h : R).
Hypothesis Gp : 0 < ga.
Hypothesis Gap : forall j k, (j < n)%nat -> (k < n)%nat -> j <> k -> ga <= Rabs (lam k - lam j).
Hypothesis hp : 0 < h.
Hypothesis Small : 6 * (INR n * h) <= ga.
Definition diag : mat := fun i j => if Nat.eqb i j then lam i else 0.
Definition off (s : R) : mat := fun i j => (q ** (m s ** V)) i j - diag i j.
Definition off' : mat := q ** (m' ** V).
Definition cut (s : R) : mat := fun i j => Rmax (- h) (Rmin h (off s i j)).
Lemma mul_diag_r : forall a i k, (k < n)%nat -> (a ** diag) i k = lam k * a i k.
Proof.
  intros a i k Hk. unfold mmul. rewrite (total_ext n _ (fun j => if Nat.eqb k j then lam k * a i j else 0)).
  - exact (total_pick n k (fun j => lam k * a i j) Hk).
  - intros j _. unfold diag. rewrite (Nat.eqb_sym j k). destruct (Nat.eqb k j) eqn:E; [apply Nat.eqb_eq in E; subst; ring|ring].
Qed.
Lemma mV : m p ** V =~ V ** diag.
Proof. intros i k Hi Hk. rewrite mul_diag_r by exact Hk. destruct Sys as (_ & E). exact (E i k Hi Hk). Qed.
Lemma off_p : forall i j, (i < n)%nat -> (j < n)%nat -> off p i j = 0.
Proof.
  intros i j Hi Hj. unfold off. assert (q ** (m p ** V) =~ diag) as A.
  { transitivity (q ** (V ** diag)); [rewrite mV; reflexivity|]. rewrite assoc. rewrite Q2. apply mmul_1_l. }
  rewrite (A i j Hi Hj). ring.
Qed.
Lemma d_const_l : forall (c : mat) f f', mderiv n f p f' -> mderiv n (fun s => c ** f s) p (c ** f').
Proof. intros c f f' D i j Hi Hj. unfold mmul. apply (dl_total n (fun k s => c i k * f s k j)). intros k Hk. apply dl_scal. apply D; assumption. Qed.
Lemma d_const_r : forall (c : mat) f f', mderiv n f p f' -> mderiv n (fun s => f s ** c) p (f' ** c).
Proof.
  intros c f f' D i j Hi Hj. unfold mmul. apply (dl_total n (fun k s => f s i k * c k j)). intros k Hk.
  eapply dl_eq; [apply (dl_mult (fun s => f s i k) (fun _ => c k j)); [apply D; assumption|apply dl_const]|]. cbv beta. ring.
Qed.
Lemma d_off : mderiv n off p off'.
Proof.
  intros i j Hi Hj. unfold off. eapply dl_eq; [apply (dl_minus (fun s => (q ** (m s ** V)) i j)); [apply (d_const_l q _ _ (d_const_r V _ _ Dm)); assumption|apply dl_const]|].
  unfold off'. ring.
Qed.
Lemma cut_bound : forall s i j, Rabs (cut s i j) <= h.
Proof.
  intros s i j. unfold cut. apply Rabs_le. split; [apply Rmax_l|]. apply Rmax_lub; [lra|apply Rmin_l].
Qed.
Lemma cut_in : forall s i j, Rabs (off s i j) <= h -> cut s i j = off s i j.
Proof.
  intros s i j H. unfold cut. assert (- h <= off s i j <= h) as (A & B). { pose proof (Rle_abs (off s i j)). pose proof (Rle_abs (- off s i j)) as N. rewrite Rabs_Ropp in N. lra. }
  rewrite Rmin_right, Rmax_right; auto.
Qed.
Lemma cut_small : forall s i j, Rabs (cut s i j) <= Rabs (off s i j).
Proof.
  intros s i j. unfold cut, Rmax, Rmin. destruct (Rle_dec h (off s i j)).
  - destruct (Rle_dec (- h) h); [|lra]. rewrite !Rabs_right by lra. assumption.
  - destruct (Rle_dec (- h) (off s i j)); [lra|]. rewrite Rabs_Ropp, (Rabs_right h) by lra. rewrite Rabs_left by lra. lra.
Qed.
Lemma off_gap : big (fun t => norm n (off (p + t))).
Proof.
  destruct (gap_big n off p off' d_off) as (k & K & N). exists k. split; [exact K|]. refine (near_imp _ _ _ N). intros t A.
  rewrite <- (norm_ext n (gap off p t) (off (p + t))); [exact A|]. intros i j Hi Hj. unfold gap, msub. rewrite off_p by assumption. ring.
Qed.
Lemma cut_off : around p (fun s => cut s =~ off s).
Proof.
  apply around_near_iff. destruct off_gap as (k & K & N). pose proof (near_small k K h hp) as S.
  refine (near_imp _ _ _ (near_and _ _ N S)). intros t (A & B) i j Hi Hj. apply cut_in.
  eapply Rle_trans; [apply (norm_entry n (off (p + t)) i j Hi Hj)|]. lra.
Qed.
Lemma cut_p : forall i j, (i < n)%nat -> (j < n)%nat -> cut p i j = 0.
Proof. intros i j Hi Hj. rewrite cut_in; [apply off_p; assumption|]. rewrite off_p, Rabs_R0 by assumption. lra. Qed.
Lemma d_cut : mderiv n cut p off'.
Proof.
  intros i j Hi Hj. apply (AddingAdjLoops.around_ext (fun s => off s i j)).
  - refine (around_imp p _ _ _ cut_off). intros s H. symmetry. apply H; assumption.
  - apply d_off; assumption.
Qed.
Definition col_of (s : R) (k : nat) : vec := match lt_dec k n with
  | left Hk => fixed n k Hk (fun j => lam k - lam j) ga h (fun j Hj => Gap j k Hj Hk) Gp Small (cut s) (fun i j _ _ => cut_bound s i j)
  | right _ => zvec end.
Definition U (s : R) : mat := fun j k => col_of s k j.
Definition shift (s : R) : vec := fun k => total n (fun l => cut s k l * U s l k).
Lemma U_diag : forall s k, (k < n)%nat -> U s k k = 1.
Proof. intros s k Hk. unfold U, col_of. destruct (lt_dec k n) as [a|]; [|contradiction]. apply fixed_k. Qed.
Lemma U_eq : forall s j k, (j < n)%nat -> (k < n)%nat -> j <> k -> (lam k - lam j) * U s j k = total n (fun l => cut s j l * U s l k) - U s j k * shift s k.
Proof.
  intros s j k Hj Hk NE. unfold shift, U, col_of. destruct (lt_dec k n) as [a|]; [|contradiction].
  exact (fixed_eq n k a _ ga h _ Gp Small (cut s) _ j Hj NE).
Qed.
Lemma U_small : forall s j k, (j < n)%nat -> (k < n)%nat -> j <> k -> Rabs (U s j k) <= 2 * INR n * norm n (off s) / ga.
Proof.
  intros s j k Hj Hk NE. unfold U, col_of. destruct (lt_dec k n) as [a|]; [|contradiction].
  apply fixed_small; [apply norm_nonneg| |exact Hj|exact NE]. intros i l Hi Hl. eapply Rle_trans; [apply cut_small|]. apply norm_entry; assumption.
Qed.
Lemma norm_off_p : norm n (off p) = 0.
Proof. unfold norm. apply total_zero. intros i Hi. apply total_zero. intros j Hj. rewrite off_p by assumption. apply Rabs_R0. Qed.
Lemma U_p : U p =~ ident.
Proof.
  intros j k Hj Hk. unfold ident. destruct (Nat.eqb j k) eqn:E; [apply Nat.eqb_eq in E; subst; apply U_diag; exact Hk|]. apply Nat.eqb_neq in E.
  pose proof (U_small p j k Hj Hk E) as B. rewrite norm_off_p, Rmult_0_r in B. unfold Rdiv in B. rewrite Rmult_0_l in B.
  pose proof (Rabs_pos (U p j k)). destruct (Req_dec (U p j k) 0) as [Z|NZ]; [exact Z|]. pose proof (Rabs_pos_lt _ NZ). lra.
Qed.
Lemma U_big : forall j k, (j < n)%nat -> (k < n)%nat -> big (fun t => Rabs (U (p + t) j k - U p j k)).
Proof.
  intros j k Hj Hk. rewrite (U_p j k Hj Hk). unfold ident. destruct (Nat.eqb j k) eqn:E.
  - apply Nat.eqb_eq in E. subst. exists 0. split; [lra|]. exists 1. split; [lra|]. intros t _. rewrite U_diag, Rminus_diag_eq, Rabs_R0 by (auto; reflexivity). lra.
  - apply Nat.eqb_neq in E. apply (big_le _ (fun t => 2 * INR n / ga * norm n (off (p + t)))).
    + exists 1. split; [lra|]. intros t _. rewrite Rminus_0_r. eapply Rle_trans; [apply U_small; assumption|]. unfold Rdiv. right. ring.
    + apply big_scale; [|exact off_gap]. apply Rmult_le_pos; [pose proof (pos_INR n); lra|left; apply Rinv_0_lt_compat; exact Gp].
Qed.
Definition mix (j k : nat) : R := total n (fun l => off' j l * U p l k).
Lemma d_mix : forall j k, (j < n)%nat -> (k < n)%nat -> derivable_pt_lim (fun s => total n (fun l => cut s j l * U s l k)) p (mix j k).
Proof.
  intros j k Hj Hk. apply (dl_total n (fun l s => cut s j l * U s l k)). intros l Hl.
  apply (dl_vanish (fun s => cut s j l) (fun s => U s l k)); [apply d_cut; assumption|apply cut_p; assumption|apply U_big; assumption].
Qed.
Lemma shift_p : forall k, (k < n)%nat -> shift p k = 0.
Proof. intros k Hk. unfold shift. apply total_zero. intros l Hl. rewrite cut_p by assumption. ring. Qed.
Definition U' : mat := fun j k => if Nat.eqb j k then 0 else (mix j k - mix k k * U p j k) / (lam k - lam j).
Lemma d_U : mderiv n U p U'.
Proof.
  intros j k Hj Hk. unfold U'. destruct (Nat.eqb j k) eqn:E.
  - apply Nat.eqb_eq in E. subst. apply (AddingAdjLoops.around_ext (fun _ => 1)); [|apply dl_const]. apply around_true. intros s. symmetry. apply U_diag. exact Hk.
  - apply Nat.eqb_neq in E. pose proof (Gap j k Hj Hk E) as G.
    assert (lam k - lam j <> 0) as NZ. { intros Z. rewrite Z, Rabs_R0 in G. lra. }
    apply (AddingAdjLoops.around_ext (fun s => / (lam k - lam j) * (total n (fun l => cut s j l * U s l k) - shift s k * U s j k))).
    + apply around_true. intros s. rewrite (Rmult_comm (shift s k)), <- (U_eq s j k Hj Hk E). field. exact NZ.
    + eapply dl_eq; [apply dl_scal; apply (dl_minus (fun s => total n (fun l => cut s j l * U s l k))); [apply d_mix; assumption|]|].
      * apply (dl_vanish (fun s => shift s k) (fun s => U s j k)); [apply d_mix; assumption|apply shift_p; exact Hk|apply U_big; assumption].
      * cbv beta. unfold Rdiv. ring.
Qed.
(** The eigenvectors, not yet of constant length *)
Definition W (s : R) : mat := V ** U s.
Definition W' : mat := V ** U'.
Lemma d_W : mderiv n W p W'. Proof. exact (d_const_l V U U' d_U). Qed.
Lemma W_p : W p =~ V. Proof. unfold W. rewrite U_p. apply mmul_1_r. Qed.
Lemma W_eigen : around p (fun s => forall i k, (i < n)%nat -> (k < n)%nat -> (m s ** W s) i k = (lam k + shift s k) * W s i k).
Proof.
  refine (around_imp p _ _ _ cut_off). intros s C i k Hi Hk.
  assert (m s ** V =~ V ** (madd diag (cut s))) as A.
  { assert (madd diag (cut s) =~ q ** (m s ** V)) as B. { intros a b Ha Hb. unfold madd. rewrite (C a b Ha Hb). unfold off. ring. }
    rewrite B, assoc, Q1, mmul_1_l. reflexivity. }
  assert (m s ** W s =~ V ** (madd diag (cut s) ** U s)) as B.
  { unfold W. rewrite assoc, A, <- assoc. reflexivity. }
  rewrite (B i k Hi Hk). unfold W, mmul at 1 3. rewrite <- total_scale. apply total_ext. intros j Hj.
  assert ((madd diag (cut s) ** U s) j k = (lam k + shift s k) * U s j k) as K; [|rewrite K; ring].
  unfold mmul. rewrite (total_ext n _ (fun l => (if Nat.eqb j l then lam j * U s l k else 0) + cut s j l * U s l k)).
  - rewrite total_plus, (total_pick n j (fun l => lam j * U s l k) Hj).
    destruct (Nat.eq_dec j k) as [->|NE]; [rewrite !U_diag by exact Hk; unfold shift; ring|].
    pose proof (U_eq s j k Hj Hk NE). lra.
  - intros l _. unfold madd, diag. destruct (Nat.eqb j l); ring.
Qed.
Definition len (s : R) (k : nat) : R := total n (fun i => W s i k * W s i k).
Definition len' (k : nat) : R := total n (fun i => W' i k * W p i k + W p i k * W' i k).
Lemma d_len : forall k, (k < n)%nat -> derivable_pt_lim (fun s => len s k) p (len' k).
Proof.
  intros k Hk. apply (dl_total n (fun i s => W s i k * W s i k)). intros i Hi. apply (dl_mult (fun s => W s i k) (fun s => W s i k)); apply d_W; assumption.
Qed.
Lemma len_p : forall k, (k < n)%nat -> 0 < len p k.
Proof.
  intros k Hk. assert (0 <= len p k) as P by (apply total_nonneg; intros; apply Rle_0_sqr).
  destruct (Req_dec (len p k) 0) as [Z|NZ]; [|lra]. exfalso.
  assert (forall i, (i < n)%nat -> V i k = 0) as A.
  { intros i Hi. rewrite <- (W_p i k Hi Hk). assert (W p i k * W p i k = 0) as Q; [|apply Rmult_integral in Q; lra].
    apply (total_pos_zero n (fun i => W p i k * W p i k)); [intros; apply Rle_0_sqr|unfold len in Z; lra|exact Hi]. }
  pose proof (Q2 k k Hk Hk) as C. unfold mmul, ident in C. rewrite Nat.eqb_refl, total_zero in C; [lra|]. intros i Hi. rewrite A by exact Hi. ring.
Qed.
Lemma len_around : around p (fun s => forall k, (k < n)%nat -> 0 < len s k).
Proof.
  assert (forall l, around p (fun s => forall k, (k < l)%nat -> (k < n)%nat -> 0 < len s k)) as A.
  { induction l as [|l IH]; [apply around_true; intros; lia|].
    destruct (lt_dec l n) as [Hl|NL].
    - assert (around p (fun s => 0 < len s l)) as B.
      { assert (continuity_pt (fun s => len s l) p) as C. { apply derivable_continuous_pt. exists (len' l). apply d_len, Hl. }
        pose proof (len_p l Hl) as LP. destruct (C (len p l) LP) as (d & Dp & K). exists d. split; [exact Dp|]. intros s Hs.
        destruct (Req_dec s p) as [->|NE]; [exact LP|].
        assert (Rabs (len s l - len p l) < len p l) as Q. { apply (K s). split; [split; [exact I|auto]|exact Hs]. }
        apply Rabs_def2 in Q. lra. }
      refine (around_imp p _ _ _ (around_and p _ _ IH B)). intros s (C & D) k Hk Kn. destruct (Nat.eq_dec k l) as [->|NE]; [exact D|]. apply C; [lia|exact Kn].
    - refine (around_imp p _ _ _ IH). intros s C k Hk Kn. apply C; [lia|exact Kn]. }
  refine (around_imp p _ _ _ (A n)). intros s C k Hk. apply C; exact Hk.
Qed.
Definition unit (s : R) : vec := fun k => sqrt (len p k / len s k).
Definition Z (s : R) : mat := fun i k => unit s k * W s i k.
Definition path (s : R) : vec * mat := if Req_EM_T s p then e0 else (fun k => lam k + shift s k, Z s).
Lemma path_lam : forall s k, (k < n)%nat -> fst (path s) k = lam k + shift s k.
Proof. intros s k Hk. unfold path. destruct (Req_EM_T s p) as [->|_]; [rewrite shift_p by exact Hk; ring|reflexivity]. Qed.
Lemma unit_p : forall k, (k < n)%nat -> unit p k = 1.
Proof. intros k Hk. unfold unit. pose proof (len_p k Hk). replace (len p k / len p k) with 1 by (field; lra). apply sqrt_1. Qed.
Lemma path_vec : forall s, snd (path s) =~ Z s.
Proof. intros s i k Hi Hk. unfold path. destruct (Req_EM_T s p) as [->|_]; [|reflexivity]. unfold Z. rewrite unit_p, (W_p i k Hi Hk) by exact Hk. ring. Qed.
Lemma d_unit : forall k, (k < n)%nat -> exists l, derivable_pt_lim (fun s => unit s k) p l.
Proof.
  intros k Hk. pose proof (len_p k Hk) as LP. eexists. unfold unit.
  apply (derivable_pt_lim_comp (fun s => len p k / len s k) sqrt).
  - eapply dl_div; [apply dl_const|apply d_len; exact Hk|lra].
  - apply derivable_pt_lim_sqrt. cbv beta. replace (len p k / len p k) with 1 by (field; lra). lra.
Qed.
Lemma choose_vec : forall (P : nat -> R -> Prop) l, (forall k, (k < l)%nat -> exists r, P k r) -> exists v : vec, forall k, (k < l)%nat -> P k (v k).
Proof.
  intros P. induction l as [|l IH]; intros H; [exists zvec; lia|]. destruct (IH ltac:(auto)) as (v & Hv). destruct (H l ltac:(lia)) as (r & Hr).
  exists (fun k => if Nat.eqb k l then r else v k). intros k Hk. destruct (Nat.eqb k l) eqn:E; [apply Nat.eqb_eq in E; subst; exact Hr|].
  apply Nat.eqb_neq in E. apply Hv. lia.
Qed.
Lemma path_ok : exists lam' v', eigenpath n m p path lam' v'.
Proof.
  destruct (choose_vec (fun k l => derivable_pt_lim (fun s => unit s k) p l) n d_unit) as (c' & C).
  set (Z' := fun i k => c' k * W p i k + unit p k * W' i k).
  assert (mderiv n Z p Z') as DZ.
  { intros i k Hi Hk. apply (dl_mult (fun s => unit s k) (fun s => W s i k)); [apply C; exact Hk|apply d_W; assumption]. }
  assert (mderiv n (fun s => snd (path s)) p Z') as DP.
  { intros i k Hi Hk. apply (AddingAdjLoops.around_ext (fun s => Z s i k)); [|apply DZ; assumption]. apply around_true. intros s. symmetry. apply path_vec; assumption. }
  exists (fun k => mix k k), Z'. refine (conj _ (conj _ (conj DP _))).
  - assert (nonsingular n (snd (path p))) as NS. { unfold path. destruct (Req_EM_T p p) as [_|N]; [|contradiction]. exact (proj1 Sys). }
    refine (around_imp p _ _ _ (around_and p _ _ (nonsingular_around n (fun s => snd (path s)) p Z' DP NS) W_eigen)).
    intros s (N & E). split; [exact N|]. intros i k Hi Hk. rewrite path_lam by exact Hk.
    rewrite (path_vec s i k Hi Hk). rewrite (total_ext n _ (fun j => unit s k * (m s i j * W s j k))) by (intros j Hj; rewrite (path_vec s j k Hj Hk); unfold Z; ring).
    rewrite total_scale. pose proof (E i k Hi Hk) as E'. unfold mmul in E'. rewrite E'. unfold Z. ring.
  - intros k Hk. apply (AddingAdjLoops.around_ext (fun s => lam k + shift s k)); [apply around_true; intros s; symmetry; apply path_lam; exact Hk|].
    eapply dl_eq; [apply dl_plus; [apply dl_const|apply (d_mix k k Hk Hk)]|]. ring.
  - refine (around_imp p _ _ _ len_around). intros s L k Hk. pose proof (len_p k Hk) as LP. specialize (L k Hk).
    assert (forall t, 0 < len t k -> total n (fun j => snd (path t) j k * snd (path t) j k) = len p k) as A.
    { intros t T. rewrite (total_ext n _ (fun j => (unit t k * unit t k) * (W t j k * W t j k))) by (intros j Hj; rewrite (path_vec t j k Hj Hk); unfold Z; ring).
      rewrite total_scale. unfold unit. rewrite sqrt_sqrt; [change (total n (fun j => W t j k * W t j k)) with (len t k); field; lra|].
      left. apply Rdiv_lt_0_compat; lra. }
    rewrite (A s L), (A p LP). reflexivity.
Qed.
Lemma path_p : path p = e0.
Proof. unfold path. destruct (Req_EM_T p p) as [_|N]; [reflexivity|contradiction]. Qed.
End Path.

Lemma eigenpath_exists : forall n m p m' e0, mderiv n m p m' -> eigensystem n (m p) e0 -> distinct n (fst e0) ->
  exists e lam' v', eigenpath n m p e lam' v' /\ e p = e0.
Proof.
  intros n m p m' e0 D Sys Dist. destruct (distance n _ Dist) as (ga & Gp & Gap).
  pose proof Sys as ((q & Q1 & Q2) & _). rewrite product_meq in Q1, Q2.
  pose proof (pos_INR n) as NP. set (h := ga / (6 * (INR n + 1))).
  assert (0 < h) as hp by (apply Rdiv_lt_0_compat; lra).
  assert (6 * (INR n * h) <= ga) as Small.
  { assert (6 * (INR n + 1) * h = ga) as E by (unfold h; field; lra). rewrite <- E. lra. }
  destruct (path_ok n m p m' D e0 Sys q Q1 Q2 ga h Gp Gap hp Small) as (l' & v' & P).
  eexists _, l', v'. split; [exact P|apply path_p].
Qed.
