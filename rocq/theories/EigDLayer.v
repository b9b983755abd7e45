(** The derivatives of the layer are exact. *)
From Coq Require Import Reals Bool Arith Lia Lra List Setoid Morphisms.
From Verif Require Import Base DeltaMSpec DeltaMProofs BeamProofs AddingModel AddingSpec AddingMat AddingDeriv AddingCalls RadianceModel RadianceProofs SingleProofs
  EigModel EigSpec EigMat EigCore EigProofs EigEnergy EigLayer EigDModel EigDSpec EigDProofs EigPath.
Open Scope R_scope.

(** * Two eigensystems give the same reflection and transmission *)
Section Same.
Variable n : nat.
Variable solve : nat -> mat -> mat -> mat.
Notation "a =~ b" := (meq n a b) (at level 70).
Hypothesis Pos : (0 < n)%nat.
Hypothesis Solve1 : solver n (solve n).
Variable x : slab.
Notation cc := (factor x 1 * omega x).
Hypothesis Scat : scatters n (qx x) (qw x) cc (P_pp x) (P_mp x).
Hypothesis LP : 0 <= ltau x.
Lemma RT_exact : forall eig, eigensystem n (gam n x) (eig (gam n x)) -> forall down1 up2 up1 down2,
  interacts n (eig_layer n solve eig false false x) down1 up2 up1 down2 <->
  exists Ip Im, transfers n (qx x) (qw x) cc (P_pp x) (P_mp x) (source false false (omega x) (flux0 x) (btran x) (as_0 x) (planck0 x) (planck1 x) (ltau x) (Q_pm x))
    (source false false (omega x) (flux0 x) (btran x) (as_0 x) (planck0 x) (planck1 x) (ltau x) (Q_mm x)) (ltau x) Ip Im /\ ends n (ltau x) Ip Im down1 up2 up1 down2.
Proof.
  intros eig E. apply eig_layer_exact; try assumption; try discriminate.
  - exact (mu_nz n x Scat).
  - exact (evals_pos n eig x Scat E).
  - exact (X_m_nonsingular n eig x Scat E).
  - exact (gc_nonsingular n solve eig x Solve1 Scat E LP).
Qed.
Lemma dot_zero : forall m i, dot n m i zvec = 0.
Proof. intros. unfold dot. apply total_zero. intros. unfold zvec. ring. Qed.
Lemma dot_one : forall m i j, (j < n)%nat -> dot n m i (fun k => ident k j) = m i j.
Proof.
  intros m i j Hj. unfold dot. rewrite (total_ext n _ (fun k => if Nat.eqb j k then m i k else 0)).
  - exact (total_pick n j (fun k => m i k) Hj).
  - intros k _. unfold ident. rewrite (Nat.eqb_sym k j). destruct (Nat.eqb j k); ring.
Qed.
Lemma RT_same : forall eig eig', eigensystem n (gam n x) (eig (gam n x)) -> eigensystem n (gam n x) (eig' (gam n x)) ->
  glob_R n solve eig x =~ glob_R n solve eig' x /\ glob_T n solve eig x =~ glob_T n solve eig' x.
Proof.
  intros eig eig' E E'.
  assert (forall d1 u2 i, (i < n)%nat -> dot n (glob_R n solve eig x) i d1 + dot n (glob_T n solve eig x) i u2 = dot n (glob_R n solve eig' x) i d1 + dot n (glob_T n solve eig' x) i u2) as A.
  { intros d1 u2 i Hi.
    pose proof (RT_exact eig E d1 u2 (fun i => dot n (glob_R n solve eig x) i d1 + dot n (glob_T n solve eig x) i u2) (fun i => dot n (glob_T n solve eig x) i d1 + dot n (glob_R n solve eig x) i u2)) as A.
    pose proof (RT_exact eig' E' d1 u2 (fun i => dot n (glob_R n solve eig x) i d1 + dot n (glob_T n solve eig x) i u2) (fun i => dot n (glob_T n solve eig x) i d1 + dot n (glob_R n solve eig x) i u2)) as B.
    destruct (proj2 B (proj1 A (fun i Hi => conj (eq_sym (Rplus_0_r _)) (eq_sym (Rplus_0_r _)))) i Hi) as (C & _).
    cbn [eig_layer Rm Tp Sp scale_add] in C. unfold zvec in C. lra. }
  split; intros i j Hi Hj.
  - pose proof (A (fun k => ident k j) zvec i Hi) as B. rewrite !dot_zero, !dot_one in B by exact Hj. lra.
  - pose proof (A zvec (fun k => ident k j) i Hi) as B. rewrite !dot_zero, !dot_one in B by exact Hj. lra.
Qed.
(** A layer without depth is clear. *)
Lemma RT_clear : forall eig, eigensystem n (gam n x) (eig (gam n x)) -> ltau x = 0 -> glob_R n solve eig x =~ zmat /\ glob_T n solve eig x =~ ident.
Proof.
  intros eig E L.
  assert (forall d1 u2 i, (i < n)%nat -> dot n (glob_R n solve eig x) i d1 + dot n (glob_T n solve eig x) i u2 = u2 i) as A.
  { intros d1 u2 i Hi.
    destruct (proj1 (RT_exact eig E d1 u2 (fun i => dot n (glob_R n solve eig x) i d1 + dot n (glob_T n solve eig x) i u2) (fun i => dot n (glob_T n solve eig x) i d1 + dot n (glob_R n solve eig x) i u2))
      (fun i Hi => conj (eq_sym (Rplus_0_r _)) (eq_sym (Rplus_0_r _)))) as (Ip & Im & _ & En).
    destruct (En i Hi) as (_ & B & C & _). rewrite L in B. congruence. }
  split; intros i j Hi Hj.
  - pose proof (A (fun k => ident k j) zvec i Hi) as B. rewrite !dot_zero, !dot_one in B by exact Hj. unfold zvec, zmat in *. lra.
  - pose proof (A zvec (fun k => ident k j) i Hi) as B. rewrite !dot_zero, !dot_one in B by exact Hj. lra.
Qed.
End Same.

(** * What does not depend on the beam and on thermal emission *)
Definition same_optics (a b : slab) : Prop := qx a = qx b /\ qw a = qw b /\ zeroth a = zeroth b /\ omega a = omega b /\ ltau a = ltau b /\ P_pp a = P_pp b /\ P_mp a = P_mp b.
Lemma same_tpr : forall a b, same_optics a b -> t_plus_r a = t_plus_r b.
Proof. intros a b (A & B & C & D & E & F & G). unfold t_plus_r, local_t, local_r, local_mat, factor, inv_qx. rewrite A, B, C, D, F, G. reflexivity. Qed.
Lemma same_tmr : forall a b, same_optics a b -> t_minus_r a = t_minus_r b.
Proof. intros a b (A & B & C & D & E & F & G). unfold t_minus_r, local_t, local_r, local_mat, factor, inv_qx. rewrite A, B, C, D, F, G. reflexivity. Qed.
Lemma same_RT : forall n solve eig a b, same_optics a b -> glob_R n solve eig a = glob_R n solve eig b /\ glob_T n solve eig a = glob_T n solve eig b.
Proof.
  intros n solve eig a b H. pose proof (same_tpr a b H) as P. pose proof (same_tmr a b H) as M. assert (ltau a = ltau b) as L by apply H.
  unfold glob_R, glob_T, ge, gd, gc, gb, ga, X_p, X_m, w1n, lambda, nu, evals, evecs, gam. rewrite P, M, L. split; reflexivity.
Qed.

Section Quiet.
Variable n : nat.
Variable solve : nat -> mat -> mat -> mat.
Notation "a *v v" := (mv n a v) (at level 40, left associativity).
Hypothesis Pos : (0 < n)%nat.
Variables x dz dx : slab.
Hypothesis Z : omega dz = 0 /\ ltau dz = 0 /\ P_pp dz = zmat /\ P_mp dz = zmat /\ Q_mm dz = zvec /\ Q_pm dz = zvec.
Lemma q_local : forall a P i j, local_mat_l x dz a P zmat i j = 0.
Proof. intros a P i j. destruct Z as (A & _). unfold local_mat_l, mul_diag, diag_mul, madd, scaled, zmat. rewrite A. ring. Qed.
Lemma q_t : forall i j, local_t_l x dz i j = 0. Proof. intros i j. unfold local_t_l. destruct Z as (_ & _ & -> & _). apply q_local. Qed.
Lemma q_r : forall i j, local_r_l x dz i j = 0. Proof. intros i j. unfold local_r_l. destruct Z as (_ & _ & _ & -> & _). apply q_local. Qed.
Lemma q_tpr : forall i j, t_plus_r_l x dz i j = 0. Proof. intros i j. unfold t_plus_r_l, madd. rewrite q_t, q_r. ring. Qed.
Lemma q_tmr : forall i j, t_minus_r_l x dz i j = 0. Proof. intros i j. unfold t_minus_r_l, less. rewrite q_t, q_r. ring. Qed.
Lemma q_mv : forall m v i, (forall i j, m i j = 0) -> (m *v v) i = 0.
Proof. intros m v i H. unfold mv. apply total_zero. intros j _. rewrite H. ring. Qed.
Lemma q_gam : forall i j, gam_l n x dz i j = 0.
Proof. intros i j. unfold gam_l, madd, mmul. rewrite !total_zero; [ring|intros; rewrite q_tmr; ring|intros; rewrite q_tpr; ring]. Qed.
Lemma q_e : forall i, beam_e_l x dz i = 0.
Proof. intros i. destruct Z as (A & _ & _ & _ & B & C). unfold beam_e_l, vless, beam_v_l. rewrite A, B, C. unfold zvec, Rdiv. ring. Qed.
Lemma q_d : forall i, beam_d_l x dz i = 0.
Proof. intros i. destruct Z as (A & _ & _ & _ & B & C). unfold beam_d_l, vadd, beam_v_l. rewrite A, B, C. unfold zvec, Rdiv. ring. Qed.

Section Beam.
Hypothesis Solve1 : solver n (solve n).
Hypothesis BfN : nonsingular n (beam_f n x).
Lemma csolve_0 : forall sol m v, solver n sol -> nonsingular n m -> (forall i, (i < n)%nat -> v i = 0) -> forall i, (i < n)%nat -> csolve sol m v i = 0.
Proof.
  intros sol m v C (q & Q1 & Q2) V i Hi. rewrite (csolve_inverse n sol C Pos m q v Q1 Q2 i Hi). apply mv_zero. exact V.
Qed.
(** Only the attenuation varies *)
Lemma q_p : as_0 dz = as_0 dx -> veq n (beam_p_l n solve true x dz) (beam_p_l n solve false x dx).
Proof.
  intros A. unfold beam_p_l. apply csolve_ext; try assumption. intros i Hi. unfold vless, vscale. rewrite A, q_d.
  rewrite (q_mv (gam_l n x dz)), (q_mv (t_minus_r_l x dz)) by first [exact q_gam|exact q_tmr].
  rewrite (mv_zero n (t_minus_r x) (beam_e_l x dz)) by (intros; apply q_e). ring.
Qed.
Lemma q_h : as_0 dz = as_0 dx -> veq n (beam_h_l n solve true x dz) (beam_h_l n solve false x dx).
Proof.
  intros A i Hi. unfold beam_h_l, vadd. rewrite q_e, (q_mv (t_plus_r_l x dz)) by exact q_tpr.
  rewrite (mv_ext n (t_plus_r x) (beam_p_l n solve true x dz) (beam_p_l n solve false x dx) i (q_p A)). ring.
Qed.
Lemma q_p0 : as_0 dz = 0 -> forall i, (i < n)%nat -> beam_p_l n solve true x dz i = 0.
Proof.
  intros A. unfold beam_p_l. apply csolve_0; try assumption. intros i Hi. unfold vless, vscale. rewrite A, q_d.
  rewrite (q_mv (gam_l n x dz)), (q_mv (t_minus_r_l x dz)) by first [exact q_gam|exact q_tmr].
  rewrite (mv_zero n (t_minus_r x) (beam_e_l x dz)) by (intros; apply q_e). ring.
Qed.
Lemma q_Fp0 : as_0 dz = 0 -> forall i, (i < n)%nat -> Fs_p_l n solve true x dz i = 0.
Proof.
  intros A i Hi. unfold Fs_p_l. cbn [still negb andb]. unfold vscale, vadd, beam_h_l, vadd. rewrite A, q_e, (q_mv (t_plus_r_l x dz)) by exact q_tpr.
  rewrite (q_p0 A i Hi), (mv_zero n (t_plus_r x) (beam_p_l n solve true x dz)) by (intros; apply q_p0; assumption). unfold Rdiv. ring.
Qed.
Lemma q_Fm0 : as_0 dz = 0 -> forall i, (i < n)%nat -> Fs_m_l n solve true x dz i = 0.
Proof. intros A i Hi. unfold Fs_m_l. cbn [still negb andb]. unfold vless. rewrite q_Fp0, q_p0 by assumption. ring. Qed.
Lemma q_Fp : as_0 dz = as_0 dx -> veq n (Fs_p_l n solve true x dz) (Fs_p_l n solve false x dx).
Proof.
  intros A i Hi. destruct (still false dx) eqn:S.
  - assert (as_0 dx = 0) as Z0. { unfold still in S. cbn in S. destruct (Req_EM_T (as_0 dx) 0); [assumption|discriminate]. }
    rewrite q_Fp0 by (auto; rewrite A; exact Z0). unfold Fs_p_l. rewrite S. reflexivity.
  - unfold Fs_p_l. rewrite S. cbn [still negb andb]. unfold vscale, vadd. rewrite (q_h A i Hi), (q_p A i Hi), A. reflexivity.
Qed.
Lemma q_Fm : as_0 dz = as_0 dx -> veq n (Fs_m_l n solve true x dz) (Fs_m_l n solve false x dx).
Proof.
  intros A i Hi. destruct (still false dx) eqn:S.
  - assert (as_0 dx = 0) as Z0. { unfold still in S. cbn in S. destruct (Req_EM_T (as_0 dx) 0); [assumption|discriminate]. }
    rewrite q_Fm0 by (auto; rewrite A; exact Z0). unfold Fs_m_l. rewrite S. reflexivity.
  - unfold Fs_m_l. rewrite S. cbn [still negb andb]. unfold vless. rewrite (q_Fp A i Hi), (q_p A i Hi). reflexivity.
Qed.
End Beam.
Section Thermal.
Hypothesis Solve2 : solver (n + n) (solve (n + n)%nat).
Hypothesis TwN : nonsingular (n + n) (ther_w n x).
Hypothesis PP : planck0 dz = planck0 dx /\ planck1 dz = planck1 dx.
Lemma q_slope : slope_l true x dz = slope_l false x dx.
Proof. unfold slope_l. destruct PP as (-> & ->). destruct Z as (_ & -> & _). unfold Rdiv. ring. Qed.
Lemma q_w : forall i j, ther_w_l n x dz i j = 0.
Proof. intros i j. unfold ther_w_l, wide. rewrite !q_t, !q_r. destruct (Nat.ltb i n), (Nat.ltb j n); ring. Qed.
Lemma q_wmv : forall v i, mv (n + n) (ther_w_l n x dz) v i = 0.
Proof. intros v i. unfold mv. apply total_zero. intros j _. rewrite q_w. ring. Qed.
Lemma q_a1 : veq (n + n) (ther_a1_l n solve true x dz) (ther_a1_l n solve false x dx).
Proof.
  unfold ther_a1_l. apply csolve_ext; [exact Solve2|lia|exact TwN|]. intros i Hi. rewrite q_wmv, q_slope. destruct Z as (-> & _). ring.
Qed.
Lemma q_a0 : veq (n + n) (ther_a0_l n solve true x dz) (ther_a0_l n solve false x dx).
Proof.
  unfold ther_a0_l. apply csolve_ext; [exact Solve2|lia|exact TwN|]. intros i Hi. rewrite q_wmv. unfold signed. rewrite (q_a1 i Hi).
  destruct Z as (-> & _). destruct PP as (-> & _). ring.
Qed.
Lemma q_F0_p : veq n (F0_p_l n solve true x dz) (F0_p_l n solve false x dx). Proof. intros i Hi. apply q_a0. lia. Qed.
Lemma q_F0_m : veq n (F0_m_l n solve true x dz) (F0_m_l n solve false x dx). Proof. intros i Hi. apply q_a0. lia. Qed.
Lemma q_F1_p : veq n (F1_p_l n solve true x dz) (F1_p_l n solve false x dx).
Proof. intros i Hi. unfold F1_p_l, vadd, vscale, upper. rewrite (q_a0 i), (q_a1 i) by lia. destruct Z as (_ & -> & _). ring. Qed.
Lemma q_F1_m : veq n (F1_m_l n solve true x dz) (F1_m_l n solve false x dx).
Proof. intros i Hi. unfold F1_m_l, vadd, vscale, lower. rewrite (q_a0 (n + i)%nat), (q_a1 (n + i)%nat) by lia. destruct Z as (_ & -> & _). ring. Qed.
End Thermal.
End Quiet.

(** * Eigenvalues *)
Lemma distinct_any : forall n m e e', eigensystem n m e -> distinct n (fst e) -> eigensystem n m e' -> distinct n (fst e').
Proof.
  intros n m e e' (N & E) D (N' & E') a b Ha Hb NE Eq.
  assert (forall k, (k < n)%nat -> exists c : vec, (forall i, (i < n)%nat -> mv n (snd e) c i = snd e' i k) /\ forall j, (j < n)%nat -> (fst e j - fst e' k) * c j = 0) as A.
  { intros k Hk. destruct (onto n (snd e) (nonsingular_injective n _ N) (fun i => snd e' i k)) as (c & C). exists c. split; [exact C|].
    apply (nonsingular_injective n _ N). intros i Hi.
    rewrite (mv_ext n (snd e) (fun j => (fst e j - fst e' k) * c j) (fun j => fst e j * c j - fst e' k * c j)) by (intros; ring). rewrite mv_minus, mv_scal, C by exact Hi.
    assert (mv n (snd e) (fun j => fst e j * c j) i = mv n m (fun j => snd e' j k) i) as Q.
    { rewrite <- (mv_ext n m (mv n (snd e) c) (fun j => snd e' j k) i C), mv_mul. unfold mv. apply total_ext. intros j Hj.
      assert (mmul n m (snd e) i j = fst e j * snd e i j) as P by exact (E i j Hi Hj). rewrite P. ring. }
    rewrite Q. pose proof (E' i k Hi Hk) as P. unfold mv. rewrite P. ring. }
  destruct (A a Ha) as (c & C & Cz). destruct (A b Hb) as (d & Dd & Dz). rewrite <- Eq in Dz.
  (* both are multiples of one eigenvector *)
  assert (forall v : vec, (forall i, (i < n)%nat -> v i = 0) -> False -> False) as _ by auto.
  assert (exists r s, (r <> 0 \/ s <> 0) /\ forall j, (j < n)%nat -> r * c j + s * d j = 0) as (r & s & RS & Z).
  { assert ((forall j, (j < n)%nat -> c j = 0) \/ exists j, (j < n)%nat /\ c j <> 0) as [Cn|(j & Hj & Cj)].
    { clear -n. induction n as [|l IH]; [left; lia|]. destruct IH as [H|(j & Hj & Cj)]; [|right; exists j; split; [lia|exact Cj]].
      destruct (Req_dec (c l) 0) as [Z|NZ]; [left|right; exists l; split; [lia|exact NZ]]. intros j Hj. destruct (Nat.eq_dec j l) as [->|NE]; [exact Z|]. apply H. lia. }
    - exists 1, 0. split; [left; lra|]. intros j Hj. rewrite Cn by exact Hj. ring.
    - exists (d j), (- c j). split; [right; lra|]. intros l Hl. destruct (Nat.eq_dec l j) as [->|NL]; [ring|].
      assert (fst e j = fst e' a) as Ej. { pose proof (Cz j Hj) as Q. apply Rmult_integral in Q. destruct Q; [lra|contradiction]. }
      pose proof (D l j Hl Hj NL) as NQ. assert (fst e l - fst e' a <> 0) as NZ by lra.
      pose proof (Cz l Hl) as Q1. pose proof (Dz l Hl) as Q2. apply Rmult_integral in Q1. apply Rmult_integral in Q2.
      destruct Q1 as [Q1|Q1]; [contradiction|]. destruct Q2 as [Q2|Q2]; [contradiction|]. rewrite Q1, Q2. ring. }
  pose proof (nonsingular_injective n _ N' (fun k => r * ident k a + s * ident k b)) as J.
  assert (forall i, (i < n)%nat -> mv n (snd e') (fun k => r * ident k a + s * ident k b) i = 0) as K.
  { intros i Hi. rewrite mv_plus, !mv_scal. 
    assert (forall k, (k < n)%nat -> mv n (snd e') (fun l => ident l k) i = snd e' i k) as P by (intros k Hk; exact (mmul_1_r n (snd e') i k Hi Hk)).
    rewrite !P by assumption. rewrite <- (C i Hi), <- (Dd i Hi), <- !mv_scal, <- mv_plus. apply mv_zero. exact Z. }
  specialize (J K). pose proof (J a Ha) as Ja. pose proof (J b Hb) as Jb. unfold ident in Ja, Jb. rewrite !Nat.eqb_refl in Ja, Jb.
  apply Nat.eqb_neq in NE. rewrite (Nat.eqb_sym b a), NE in *. lra.
Qed.
Lemma filter_one : forall (A : Type) (f : A -> bool) l, length (filter f l) = 1%nat -> exists a, In a l /\ f a = true /\ forall b, In b l -> f b = true -> b = a.
Proof.
  intros A f. induction l as [|x l IH]; cbn; intros H; [discriminate|]. destruct (f x) eqn:F.
  - exists x. refine (conj (or_introl eq_refl) (conj F _)). intros b [B|B] Fb; [auto|].
    cbn in H. assert (filter f l = nil) as N by (destruct (filter f l); [reflexivity|discriminate]).
    assert (In b (filter f l)) as I by (apply filter_In; auto). rewrite N in I. destruct I.
  - destruct (IH H) as (a & I & Fa & U). exists a. refine (conj (or_intror I) (conj Fa _)). intros b [B|B] Fb; [subst; congruence|]. apply U; assumption.
Qed.

(** * The layer *)
Definition still_light (dl db dt : bool) (dx : slab) : slab :=
  {| qx := zvec; qw := zvec; zeroth := false; flux0 := 0;
     omega := if dl then omega dx else 0; ltau := if dl then ltau dx else 0;
     as_0 := if db then as_0 dx else 0; atran := if db then atran dx else 0; btran := if db then btran dx else 0;
     planck0 := if dt then planck0 dx else 0; planck1 := if dt then planck1 dx else 0;
     P_pp := if dl then P_pp dx else zmat; P_mp := if dl then P_mp dx else zmat;
     Q_mm := if dl then Q_mm dx else zvec; Q_pm := if dl then Q_pm dx else zvec |}.
Section Main.
Variable n : nat.
Variable solve : nat -> mat -> mat -> mat.
Variable eig : mat -> vec * mat.
Notation "a *v v" := (mv n a v) (at level 40, left associativity).
Notation "a =~ b" := (meq n a b) (at level 70).
Hypothesis Pos : (0 < n)%nat.
Hypothesis Solve1 : solver n (solve n).
Hypothesis EigS : eigensolver n eig.
Hypothesis Norm : normalised n eig.
Variables (X : R -> slab) (p : R) (dx : slab) (dl db dt : bool).
Notation x := (X p).
Notation cc s := (factor (X s) 1 * omega (X s)).
Hypothesis Var : varies n dl db dt X p dx.
Hypothesis Near : around p (fun s => scatters n (qx (X s)) (qw (X s)) (cc s) (P_pp (X s)) (P_mp (X s)) /\ 0 <= ltau (X s)).
Hypothesis Sep : separable n (qx x) (qw x) (cc p) (P_pp x) (P_mp x).
Hypothesis Simple : dl = true -> solver (S n) (solve (S n)) /\ simple_spectrum n (qx x) (qw x) (cc p) (P_pp x) (P_mp x) /\ coupled n (qx x) (qw x) (cc p) (P_pp x) (P_mp x).
Lemma Scat : scatters n (qx x) (qw x) (cc p) (P_pp x) (P_mp x). Proof. exact (proj1 (here _ _ Near)). Qed.
Lemma LP : 0 <= ltau x. Proof. exact (proj2 (here _ _ Near)). Qed.
Lemma E0 : eigensystem n (gam n x) (eig (gam n x)). Proof. exact (eig_ok n eig x EigS Scat Sep). Qed.
Lemma Dist : dl = true -> distinct n (evals n eig x).
Proof.
  intros D. destruct (Simple D) as (_ & (e & E & De) & _).
  apply (distinct_any n (gam n x) e (eig (gam n x))); [|exact De|exact E0]. exact (eigensystem_meq n _ _ e (second_gam n x Scat) E).
Qed.
Lemma Triv : dl = true -> forall k, (k < n)%nat -> trivial n eig x k = true -> exists i, (i < n)%nat /\ qw x i = 0 /\ forall j, (j < n)%nat -> j <> i -> evecs n eig x j k = 0.
Proof.
  intros D k Hk T. destruct (Simple D) as (_ & _ & Co). unfold trivial in T. destruct (Nat.eqb n 1) eqn:N1; [discriminate|]. apply Nat.eqb_neq in N1.
  apply Nat.eqb_eq in T. apply filter_one in T. destruct T as (i & I & _ & U). apply in_seq in I. 
  exists i. split; [lia|]. pose proof E0 as (_ & Ee).
  apply (Co (evals n eig x k) (fun j => evecs n eig x j k) i); [lia|lia| | |].
  - apply Norm; [exists (eig (gam n x)); exact E0|exact Hk].
  - intros j Hj. pose proof (Ee j k Hj Hk) as Q. unfold evals, evecs. rewrite <- Q. apply total_ext. intros l Hl. rewrite (second_gam n x Scat j l Hj Hl). reflexivity.
  - intros j Hj NE. apply Rnot_lt_le. intros L. apply NE. apply U; [apply in_seq; lia|].
    destruct (Rlt_dec dbl_epsilon (Rabs (evecs n eig x j k))) as [_|NL]; [reflexivity|]. elim NL. unfold dbl_epsilon.
    replace 4503599627370496 with (2 ^ 52) by (cbn; lra). exact L.
Qed.
Lemma Fixed : forall s, qx (X s) = qx x /\ qw (X s) = qw x /\ zeroth (X s) = zeroth x /\ flux0 (X s) = flux0 x.
Proof. apply Var. Qed.
Notation dz := (still_light dl db dt dx).
Lemma all_z : derivable_pt_lim (fun s => omega (X s)) p (omega dz) /\ derivable_pt_lim (fun s => ltau (X s)) p (ltau dz) /\
  mderiv n (fun s => P_pp (X s)) p (P_pp dz) /\ mderiv n (fun s => P_mp (X s)) p (P_mp dz) /\
  vderiv n (fun s => Q_mm (X s)) p (Q_mm dz) /\ vderiv n (fun s => Q_pm (X s)) p (Q_pm dz) /\
  derivable_pt_lim (fun s => as_0 (X s)) p (as_0 dz) /\ derivable_pt_lim (fun s => atran (X s)) p (atran dz) /\ derivable_pt_lim (fun s => btran (X s)) p (btran dz) /\
  derivable_pt_lim (fun s => planck0 (X s)) p (planck0 dz) /\ derivable_pt_lim (fun s => planck1 (X s)) p (planck1 dz).
Proof.
  destruct Var as (_ & A & B & C).
  assert (forall f : R -> R, (forall s, f s = f p) -> derivable_pt_lim f p 0) as K.
  { intros f F. apply (eq_around (fun _ => f p)); [|apply dl_const]. apply around_true. intros s. symmetry. apply F. }
  cbn [still_light omega ltau P_pp P_mp Q_mm Q_pm as_0 atran btran planck0 planck1].
  assert (forall f : R -> mat, (forall s, f s = f p) -> mderiv n f p zmat) as KM by (intros f F i j _ _; apply (K (fun s => f s i j)); intros s; rewrite F; reflexivity).
  assert (forall f : R -> vec, (forall s, f s = f p) -> vderiv n f p zvec) as KV by (intros f F i _; apply (K (fun s => f s i)); intros s; rewrite F; reflexivity).
  destruct dl, db, dt; repeat match goal with H : _ /\ _ |- _ => destruct H end; 
    refine (conj _ (conj _ (conj _ (conj _ (conj _ (conj _ (conj _ (conj _ (conj _ (conj _ _))))))))));
    first [assumption | apply K; intros s; first [apply A|apply B|apply C] | apply KM; intros s; apply A | apply KV; intros s; apply A].
Qed.
Definition R' : mat := if dl then glob_R_l n solve eig x dx else zmat.
Definition T' : mat := if dl then glob_T_l n solve eig x dx else zmat.
Lemma d_RT : mderiv n (fun s => glob_R n solve eig (X s)) p R' /\ mderiv n (fun s => glob_T n solve eig (X s)) p T'.
Proof.
  pose proof (mu_nz n x Scat) as Qx. unfold R', T'. case_eq dl; intros D; pose proof Var as V; unfold varies in V; rewrite D in V.
  - destruct V as (F & (Do & Dt & Dp & Dm & _) & _). destruct (Simple D) as (SS & _).
    destruct (eigenpath_exists n (fun s => gam n (X s)) p (gam_l n x dx) (eig (gam n x))) as (e & lam' & v' & P & H).
    + exact (d_gam n X p dx F Do Dp Dm Qx).
    + exact E0.
    + exact (Dist D).
    + assert (around p (fun s => glob_R n solve (fun _ => e s) (X s) =~ glob_R n solve eig (X s) /\ glob_T n solve (fun _ => e s) (X s) =~ glob_T n solve eig (X s))) as Sm.
      { refine (around_imp p _ _ _ (around_and p _ _ Near (proj1 P))). intros s ((Sc & L) & Es).
        apply (RT_same n solve Pos Solve1 (X s) Sc L (fun _ => e s) eig Es). apply EigS. exists (e s). exact Es. }
      pose proof (evals_pos n eig x Scat E0) as Ev. pose proof (X_m_nonsingular n eig x Scat E0) as XN. pose proof (gc_nonsingular n solve eig x Solve1 Scat E0 LP) as GN.
      split.
      * apply (md_around n (fun s => glob_R n solve (fun _ => e s) (X s))); [refine (around_imp p _ _ _ Sm); intros s Q; exact (proj1 Q)|].
        exact (d_R_E n solve eig Pos Solve1 X p dx F Do Dt Dp Dm Qx e lam' v' P H Ev (Dist D) (Triv D) SS XN GN).
      * apply (md_around n (fun s => glob_T n solve (fun _ => e s) (X s))); [refine (around_imp p _ _ _ Sm); intros s Q; exact (proj2 Q)|].
        exact (d_T_E n solve eig Pos Solve1 X p dx F Do Dt Dp Dm Qx e lam' v' P H Ev (Dist D) (Triv D) SS XN GN).
  - destruct V as (F & C & _).
    assert (forall s, glob_R n solve eig (X s) = glob_R n solve eig x /\ glob_T n solve eig (X s) = glob_T n solve eig x) as Q.
    { intros s. apply same_RT. destruct (F s) as (A1 & A2 & A3 & _). destruct (C s) as (B1 & B2 & B3 & B4 & _). unfold same_optics. tauto. }
    split; intros i j _ _; [apply (eq_around (fun _ => glob_R n solve eig x i j))|apply (eq_around (fun _ => glob_T n solve eig x i j))]; try apply dl_const;
      apply around_true; intros s; rewrite ?(proj1 (Q s)), ?(proj2 (Q s)); reflexivity.
Qed.
(** The source of the beam *)
Section Solar.
Hypothesis As : as_0 x <> 0.
Hypothesis NR : nonresonant n (qx x) (qw x) (cc p) (P_pp x) (P_mp x) (as_0 x).
Hypothesis At : around p (fun s => atran (X s) = exp (- as_0 (X s) * ltau (X s))).
Hypothesis Lb : dl = true -> db = true.
Lemma d_solar : vderiv n (fun s => S_p n solve eig (X s)) p (if db then S_p_l n solve eig dl x dx else zvec) /\
                vderiv n (fun s => S_m n solve eig (X s)) p (if db then S_m_l n solve eig dl x dx else zvec).
Proof.
  pose proof (mu_nz n x Scat) as Qx. pose proof (beam_f_nonsingular n x Scat As NR) as BN. destruct d_RT as (DR & DT). unfold R', T' in DR, DT.
  case_eq dl; intros D; rewrite D in DR, DT.
  - rewrite (Lb D). pose proof Var as V. unfold varies in V. rewrite D, (Lb D) in V. destruct V as (F & (Do & Dt & Dp & Dm & Dmm & Dpm) & (Da & Dat & _) & _). split.
    + exact (d_S_p n solve eig Pos X p dx F Do Dp Dm Qx _ _ DR DT Solve1 Dmm Dpm Da Dat As BN).
    + exact (d_S_m n solve eig Pos X p dx F Do Dp Dm Qx _ _ DR DT Solve1 Dmm Dpm Da Dat As BN).
  - pose proof all_z as (Do & Dt & Dp & Dm & Dmm & Dpm & Da & Dat & _).
    set (z := dz) in *.
    assert (omega z = 0 /\ ltau z = 0 /\ P_pp z = zmat /\ P_mp z = zmat /\ Q_mm z = zvec /\ Q_pm z = zvec) as Z. { unfold z. cbn [still_light omega ltau P_pp P_mp Q_mm Q_pm]. rewrite D. tauto. }
    pose proof (d_S_p n solve eig Pos X p z Fixed Do Dp Dm Qx _ _ DR DT Solve1 Dmm Dpm Da Dat As BN) as SP.
    pose proof (d_S_m n solve eig Pos X p z Fixed Do Dp Dm Qx _ _ DR DT Solve1 Dmm Dpm Da Dat As BN) as SM.
    assert (forall v i, (zmat *v v) i = 0) as MZ. { intros v i. unfold mv. apply total_zero. intros. unfold zmat. ring. }
    (* nothing varies *)
    assert (as_0 z = 0 -> atran z = 0 -> (forall i, (i < n)%nat -> Sp_all n solve eig X p z zmat zmat i = 0) /\ (forall i, (i < n)%nat -> Sm_all n solve eig X p z zmat zmat i = 0)) as Q0.
    { intros A0 T0. pose proof (q_Fp0 n solve Pos x z Z Solve1 BN A0) as F0. pose proof (q_Fm0 n solve Pos x z Z Solve1 BN A0) as M0.
      assert (forall i, (i < n)%nat -> beam_A n solve true x z i = 0) as BA by (intros i Hi; unfold beam_A, vadd, vscale; rewrite F0, T0 by exact Hi; ring).
      split; intros i Hi; unfold Sp_all, Sm_all, vless, vadd, vscale; rewrite !MZ, ?F0, ?M0, ?T0 by exact Hi;
        rewrite (mv_zero n _ (beam_A n solve true x z)), (mv_zero n _ (Fs_m_l n solve true x z)) by assumption; ring. }
    (* only the attenuation varies, not the transmittance: a layer without depth *)
    assert (db = true -> atran z = 0 -> (forall i, (i < n)%nat -> Sp_all n solve eig X p z zmat zmat i = 0) /\ (forall i, (i < n)%nat -> Sm_all n solve eig X p z zmat zmat i = 0)) as Q1.
    { intros Hb T0. destruct (Req_dec (as_0 z) 0) as [A0|AN]; [exact (Q0 A0 T0)|].
      assert (ltau x = 0) as L0.
      { assert (derivable_pt_lim (fun s => exp (- as_0 (X s) * ltau (X s))) p (- as_0 z * ltau x * exp (- as_0 x * ltau x))) as De.
        { eapply dl_eq; [apply (dl_exp (fun s => - as_0 (X s) * ltau (X s))); apply (dl_mult (fun s => - as_0 (X s)) (fun s => ltau (X s))); [apply derivable_pt_lim_opp; exact Da|exact Dt]|].
          cbv beta. destruct Z as (_ & -> & _). ring. }
        assert (- as_0 z * ltau x * exp (- as_0 x * ltau x) = 0) as E1.
        { rewrite <- T0. eapply uniqueness_limite; [exact De|]. eapply eq_around; [exact At|exact Dat]. }
        pose proof (exp_pos (- as_0 x * ltau x)). apply Rmult_integral in E1. destruct E1 as [E1|E1]; [|lra]. apply Rmult_integral in E1. destruct E1; [lra|assumption]. }
      destruct (RT_clear n solve Pos Solve1 x Scat LP eig E0 L0) as (RZ & TI).
      assert (atran x = 1) as A1. { rewrite (here _ _ At), L0, Rmult_0_r, exp_0. reflexivity. }
      assert (forall v i, (i < n)%nat -> (glob_R n solve eig x *v v) i = 0) as RV. { intros v i Hi. rewrite (mv_mext n _ zmat v i Hi RZ). apply MZ. }
      assert (forall v i, (i < n)%nat -> (glob_T n solve eig x *v v) i = v i) as TV. { intros v i Hi. rewrite (mv_mext n _ ident v i Hi TI). apply mv_ident. exact Hi. }
      split; intros i Hi; unfold Sp_all, Sm_all, vless, vadd, vscale; rewrite !MZ, !RV, !TV by exact Hi; unfold beam_A, vadd, vscale; rewrite T0, A1; ring. }
    case_eq db; intros B.
    + assert (as_0 z = as_0 dx) as AE by (unfold z; cbn [still_light as_0]; rewrite B; reflexivity).
      assert (atran z = atran dx) as TE by (unfold z; cbn [still_light atran]; rewrite B; reflexivity).
      unfold S_p_l, S_m_l. destruct (Req_EM_T (atran dx) 0) as [T0|TN].
      * rewrite T0 in TE. destruct (Q1 B TE) as (P1 & P2). split; [eapply vderiv_ext; [|exact SP]; exact P1|eapply vderiv_ext; [|exact SM]; exact P2].
      * pose proof (q_Fp n solve Pos x z dx Z Solve1 BN AE) as QP. pose proof (q_Fm n solve Pos x z dx Z Solve1 BN AE) as QM.
        assert (veq n (beam_A n solve true x z) (beam_A n solve false x dx)) as QA by (intros i Hi; unfold beam_A, vadd, vscale; rewrite (QP i Hi), TE; reflexivity).
        split; [eapply vderiv_ext; [|exact SP]|eapply vderiv_ext; [|exact SM]]; intros i Hi; unfold Sp_all, Sm_all, vless, vadd, vscale; rewrite !MZ, ?(QP i Hi), ?(QM i Hi), ?TE;
          rewrite (mv_ext n _ _ _ i QA), (mv_ext n _ _ _ i QM); ring.
    + assert (as_0 z = 0) as AE by (unfold z; cbn [still_light as_0]; rewrite B; reflexivity).
      assert (atran z = 0) as TE by (unfold z; cbn [still_light atran]; rewrite B; reflexivity).
      destruct (Q0 AE TE) as (P1 & P2). split; [eapply vderiv_ext; [|exact SP]; exact P1|eapply vderiv_ext; [|exact SM]; exact P2].
Qed.
End Solar.
(** The source of thermal emission *)
Section Emits.
Hypothesis Solve2 : solver (n + n) (solve (n + n)%nat).
Hypothesis LN : ltau x <> 0.
Hypothesis Lt : dl = true -> dt = true.
Lemma d_emits : vderiv n (fun s => Sl_p n solve eig (X s)) p (if dt then Sl_p_l n solve eig dl x dx else zvec) /\
                vderiv n (fun s => Sl_m n solve eig (X s)) p (if dt then Sl_m_l n solve eig dl x dx else zvec).
Proof.
  pose proof (mu_nz n x Scat) as Qx. pose proof (wide_nonsingular n eig x Pos Qx E0 (evals_pos n eig x Scat E0)) as WN. destruct d_RT as (DR & DT). unfold R', T' in DR, DT.
  case_eq dl; intros D; rewrite D in DR, DT.
  - rewrite (Lt D). pose proof Var as V. unfold varies in V. rewrite D, (Lt D) in V. destruct V as (F & (Do & Dt & Dp & Dm & _) & _ & (Da & Db)). split.
    + exact (d_Sl_p n solve eig Pos X p dx F Do Dt Dp Dm Qx _ _ DR DT Solve2 Da Db LN WN).
    + exact (d_Sl_m n solve eig Pos X p dx F Do Dt Dp Dm Qx _ _ DR DT Solve2 Da Db LN WN).
  - pose proof all_z as (Do & Dt & Dp & Dm & _ & _ & _ & _ & _ & Da & Db).
    set (z := dz) in *.
    assert (omega z = 0 /\ ltau z = 0 /\ P_pp z = zmat /\ P_mp z = zmat /\ Q_mm z = zvec /\ Q_pm z = zvec) as Z. { unfold z. cbn [still_light omega ltau P_pp P_mp Q_mm Q_pm]. rewrite D. tauto. }
    assert (forall v i, (zmat *v v) i = 0) as MZ. { intros v i. unfold mv. apply total_zero. intros. unfold zmat. ring. }
    pose proof (d_Sl_p n solve eig Pos X p z Fixed Do Dt Dp Dm Qx _ _ DR DT Solve2 Da Db LN WN) as SP.
    pose proof (d_Sl_m n solve eig Pos X p z Fixed Do Dt Dp Dm Qx _ _ DR DT Solve2 Da Db LN WN) as SM.
    assert (forall y, planck0 z = planck0 y /\ planck1 z = planck1 y ->
       veq n (Slp_all n solve eig X p z zmat zmat) (Sl_p_l n solve eig false x y) /\ veq n (Slm_all n solve eig X p z zmat zmat) (Sl_m_l n solve eig false x y)) as Q.
    { intros y PY. pose proof (q_F0_p n solve Pos x z y Z Solve2 WN PY) as A1. pose proof (q_F0_m n solve Pos x z y Z Solve2 WN PY) as A2.
      pose proof (q_F1_p n solve Pos x z y Z Solve2 WN PY) as A3. pose proof (q_F1_m n solve Pos x z y Z Solve2 WN PY) as A4.
      split; intros i Hi; unfold Slp_all, Slm_all, Sl_p_l, Sl_m_l, vless; rewrite !MZ, ?(A1 i Hi), ?(A4 i Hi), (mv_ext n _ _ _ i A2), (mv_ext n _ _ _ i A3); ring. }
    case_eq dt; intros B.
    + destruct (Q dx) as (P1 & P2); [unfold z; cbn [still_light planck0 planck1]; rewrite B; split; reflexivity|].
      split; [eapply vderiv_ext; [|exact SP]; exact P1|eapply vderiv_ext; [|exact SM]; exact P2].
    + (* nothing varies *)
      destruct (Q z) as (P1 & P2); [split; reflexivity|].
      assert (planck0 z = 0 /\ planck1 z = 0) as (Z0 & Z1) by (unfold z; cbn [still_light planck0 planck1]; rewrite B; split; reflexivity).
      assert (forall v, (forall i, (i < n + n)%nat -> v i = 0) -> forall i, (i < n + n)%nat -> csolve (solve (n + n)%nat) (ther_w n x) v i = 0) as CZ.
      { intros v. apply (csolve_0 (n + n) ltac:(lia) _ _ v Solve2 WN). }
      assert (forall i, (i < n + n)%nat -> ther_a1_l n solve false x z i = 0) as A1. { apply CZ. intros i _. unfold slope_l. rewrite Z0, Z1. unfold Rdiv. ring. }
      assert (forall i, (i < n + n)%nat -> ther_a0_l n solve false x z i = 0) as A0. { apply CZ. intros i Hi. unfold signed. rewrite Z0, A1 by exact Hi. ring. }
      assert ((forall i, (i < n)%nat -> Sl_p_l n solve eig false x z i = 0) /\ (forall i, (i < n)%nat -> Sl_m_l n solve eig false x z i = 0)) as (P3 & P4).
      { assert (forall i, (i < n)%nat -> F0_p_l n solve false x z i = 0) as B1 by (intros i Hi; apply A0; lia).
        assert (forall i, (i < n)%nat -> F0_m_l n solve false x z i = 0) as B2 by (intros i Hi; apply A0; lia).
        assert (forall i, (i < n)%nat -> F1_p_l n solve false x z i = 0) as B3 by (intros i Hi; unfold F1_p_l, vadd, vscale, upper; rewrite A0, A1 by lia; ring).
        assert (forall i, (i < n)%nat -> F1_m_l n solve false x z i = 0) as B4 by (intros i Hi; unfold F1_m_l, vadd, vscale, lower; rewrite A0, A1 by lia; ring).
        split; intros i Hi; unfold Sl_p_l, Sl_m_l, vless; rewrite ?B1, ?B4 by exact Hi; rewrite !(mv_zero n _ (F1_p_l n solve false x z)), !(mv_zero n _ (F0_m_l n solve false x z)) by assumption; ring. }
      split; [eapply vderiv_ext; [|exact SP]|eapply vderiv_ext; [|exact SM]]; intros i Hi; [rewrite (P1 i Hi); apply P3, Hi|rewrite (P2 i Hi); apply P4, Hi].
Qed.
End Emits.
End Main.
