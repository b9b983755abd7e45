(** C61: the solver by two orders of scattering reports the light that is scattered exactly twice. *)
From Coq Require Import Reals Bool Arith List Lia Lra.
From Verif Require Import Base DeltaMSpec DeltaMProofs BeamProofs SingleProofs AddingModel TwoModel ViewDProofs SosModel TwoOsSpec TwoOsModel TwoOsProofs.
Import ListNotations.
Open Scope R_scope.

(** What the handle gives the solver: cosines, thicknesses, and the transmittance of the beam through each layer *)
Definition given_right (sk : sky) (n n_out m : nat) (cosine : vec) : Prop :=
  0 < a_mu0 sk /\ (forall q, (q < n)%nat -> 0 < a_qx sk q) /\ (forall k, (k < n_out)%nat -> 0 < cosine k) /\
  forall j, (j < m)%nat -> 0 <= a_ltau sk j /\ 0 < a_as0 sk j /\ a_atran sk j = exp (- a_ltau sk j * a_as0 sk j).
(** In a plane-parallel atmosphere the slant of the beam is that at the top everywhere. *)
Definition parallel (sk : sky) (m : nat) : Prop := forall j, (j < m)%nat -> a_as0 sk j * a_mu0 sk = 1.
Definition number_of (n n_umus : nat) (flag : bool) : nat := if flag then n_umus else n.
Definition cosine_of (sk : sky) (flag : bool) : vec := if flag then a_umu sk else a_qx sk.

Lemma all_seq : forall f k, (forall i, (i < k)%nat -> f i = true) -> forallb f (seq 0 k) = true.
Proof. intros f k H. apply forallb_forall. intros i Hi. apply in_seq in Hi. apply H. lia. Qed.
Lemma nonzero_pos : forall a, 0 < a -> nonzero a = true. Proof. intros a Ha. unfold nonzero. destruct (Req_EM_T a 0); [lra|reflexivity]. Qed.
Lemma divisible_ok : forall sk n n_umus m flag, given_right sk n (number_of n n_umus flag) m (cosine_of sk flag) -> divisible sk n n_umus m flag = true.
Proof.
  intros sk n n_umus m flag (M & Q & V & L).
  assert (forall q, (q < n)%nat -> 0 < x sk q) as X by (intros q Hq; apply Rdiv_lt_0_compat; [lra|apply Q, Hq]).
  assert (forall k, (k < n_xmus n n_umus flag)%nat -> 0 < y sk flag k) as Y by (intros k Hk; apply Rdiv_lt_0_compat; [lra|apply V, Hk]).
  unfold divisible. rewrite !andb_true_iff. refine (conj (conj (conj (conj _ _) _) _) _).
  - apply nonzero_pos, M.
  - apply all_seq. intros q Hq. apply nonzero_pos, Q, Hq.
  - apply all_seq. intros k Hk. apply nonzero_pos, V, Hk.
  - apply all_seq. intros j Hj. destruct (L j Hj) as (_ & A & _). apply andb_true_iff. split; apply all_seq; intros i Hi; apply nonzero_pos; [specialize (X i Hi)|specialize (Y i Hi)]; lra.
  - apply all_seq. intros k Hk. apply all_seq. intros q Hq. apply nonzero_pos. specialize (X q Hq). specialize (Y k Hk). lra.
Qed.

(** In a plane-parallel atmosphere the upward radiance reported at the top is that of the light scattered exactly twice, at the streams (flag not set) or at
    the output directions, which follow the streams (flag set); everything else is reported as zero. *)
Theorem C61_second_order : forall sk n n_umus m vector flag u1 d1 u2, let n_out := number_of n n_umus flag in
  given_right sk n n_out m (cosine_of sk flag) -> parallel sk m ->
  vector = true \/ (forall j k q, (j < m)%nat -> (k < n_out)%nat -> (q < n)%nat -> a_Ppm sk j k q = a_Pmp sk j k q) ->
  scattered_twice sk n n_out (cosine_of sk flag) m u1 d1 u2 ->
  exists r, rtm_two_os sk n n_umus m vector flag = Answer r /\
    (forall k, (k < n_out)%nat -> o_up_top r ((if flag then n else 0) + k)%nat = u2 0%nat 0 k) /\
    (forall p, flag = true -> (p < n)%nat -> o_up_top r p = 0) /\ (forall p, o_down_top r p = 0 /\ o_up_bottom r p = 0 /\ o_down_bottom r p = 0).
Proof.
  intros sk n n_umus m vector flag u1 d1 u2 n_out Gv Pl Sm Sc. unfold rtm_two_os. rewrite (divisible_ok _ _ _ _ _ Gv). eexists. split; [reflexivity|]. cbn [o_up_top o_down_top o_up_bottom o_down_bottom].
  destruct Gv as (M & Q & V & L). refine (conj _ (conj _ _)).
  - intros k Hk. change (if flag then n else 0%nat) with (offset n flag). change (number_of n n_umus flag) with (n_xmus n n_umus flag) in *.
    replace ((offset n flag <=? offset n flag + k)%nat && (offset n flag + k <? offset n flag + n_xmus n n_umus flag)%nat) with true.
    2: { symmetry. apply andb_true_iff. split; [apply Nat.leb_le; lia|apply Nat.ltb_lt; unfold n_out in Hk; lia]. }
    replace (offset n flag + k - offset n flag)%nat with k by lia.
    pose proof (twice_level sk n n_umus m vector flag u1 d1 u2 M Q V (fun j Hj => proj1 (L j Hj)) (fun j Hj => proj2 (proj2 (L j Hj))) Pl Sm Sc m k (le_n m) Hk) as T. rewrite Nat.sub_diag in T.
    destruct Sc as (_ & _ & _ & _ & S5 & _). rewrite (total_zero n) in T by (intros q Hq; rewrite (proj1 (S5 q Hq)); ring). cbn [arriving] in T. rewrite T. unfold Rdiv. ring.
  - intros p -> Hp. cbn [offset]. destruct (Nat.leb_spec n p); [lia|]. reflexivity.
  - intros p. repeat split.
Qed.
Print Assumptions C61_second_order.

(** * Instances *)
(** One layer of thickness 1 and slant 2, one stream *)
Definition single_layer (mu0 : R) : sky :=
  {| a_omega := fun _ => 1; a_ltau := fun _ => 1; a_as0 := fun _ => 2; a_atran := fun _ => exp (- (1) * 2); a_P0p := fun _ _ => 1; a_P0m := fun _ _ => 1; a_Ppp := fun _ _ _ => 1; a_Pmp := fun _ _ _ => 1; a_Ppm := fun _ _ _ => 1;
     a_F0 := 4 * PI; a_mu0 := mu0; a_qx := fun _ => 1; a_qw := fun _ => 2; a_umu := fun _ => 1; a_zeroth := true; a_Rs := None |}.
Definition l_u1 (t : R) : R := (exp (- 2 * t) - exp (t - 3)) / 3.
Definition l_d1 (t : R) : R := exp (- t) - exp (- 2 * t).
Definition l_u2 (t : R) : R := exp (- t) / 2 - 2 / 9 * exp (- 2 * t) + t / 3 * exp (t - 3) - (exp (- (2)) / 2 + exp (- (3)) / 9) * exp t.
Lemma single_layer_light : forall mu0, scattered_twice (single_layer mu0) 1 1 (fun _ => 1) 1
  (fun j t _ => if (j =? 0)%nat then l_u1 t else 0) (fun j t _ => if (j =? 0)%nat then l_d1 t else l_d1 1) (fun j t _ => if (j =? 0)%nat then l_u2 t else 0).
Proof.
  intros mu0. pose proof PI_RGT_0 as P. unfold scattered_twice, inside, sun, share.
  cbn [single_layer a_omega a_ltau a_as0 a_P0p a_P0m a_Ppp a_Ppm a_F0 a_mu0 a_qx a_qw a_zeroth a_Rs].
  refine (conj _ (conj _ (conj _ (conj _ (conj _ _))))).
  - intros j t q (Hj & _) _. assert (j = 0%nat) as -> by lia. cbn [Nat.eqb arriving single_layer a_F0]. unfold l_u1, l_d1. pose proof (dl_id t). split.
    + eapply dl_eq; [ddq; apply Rgt_not_eq; lra|]. cbv beta. replace (- (2) * t) with (- 2 * t) by ring. field. lra.
    + eapply dl_eq; [ddq|]. cbv beta. replace (- (2) * t) with (- 2 * t) by ring. field. lra.
  - intros j t k (Hj & _) _. assert (j = 0%nat) as -> by lia. cbn [Nat.eqb total]. unfold l_u1, l_d1, l_u2. pose proof (dl_id t). eapply dl_eq; [ddq; apply Rgt_not_eq; lra|]. cbv beta.
    replace (exp (- (3))) with (exp (t - 3) * exp (- t)) by (rewrite <- exp_plus; f_equal; ring). assert (exp t * exp (- t) = 1) as E by (rewrite <- exp_plus, <- exp_0; f_equal; ring).
    replace (exp (t - 3)) with (exp t * exp (- (3))) by (rewrite <- exp_plus; f_equal; ring).
    field.
  - intros j q Hj _. assert (j = 0%nat) as -> by lia. cbn [Nat.eqb]. split; [|reflexivity]. unfold l_u1. replace (- 2 * 1) with (1 - 3) by ring. field.
  - intros j k Hj _. assert (j = 0%nat) as -> by lia. cbn [Nat.eqb]. unfold l_u2. replace (1 - 3) with (- 2 * 1) by ring.
    replace (exp (- (2))) with (exp (- (1)) * exp (- (1))) by (rewrite <- exp_plus; f_equal; ring). replace (exp (- (3))) with (exp (- (1)) * exp (- (1)) * exp (- (1))) by (rewrite <- !exp_plus; f_equal; ring).
    replace (exp (- 2 * 1)) with (exp (- (1)) * exp (- (1))) by (rewrite <- exp_plus; f_equal; ring). assert (exp 1 * exp (- (1)) = 1) as E by (rewrite <- exp_plus, <- exp_0; f_equal; ring).
    replace (exp (- (1)) / 2) with (exp (- (1)) * (exp 1 * exp (- (1))) / 2) by (rewrite E; field). 
    replace (exp (- (1)) * exp (- (1)) * exp (- (1)) / 9) with (exp (- (1)) * exp (- (1)) * exp (- (1)) / 9) by reflexivity.
    transitivity ((1 - exp 1 * exp (- (1))) * (exp (- (1)) * exp (- (1)) / 9)); [field|rewrite E; ring].
  - intros q _. cbn [Nat.eqb]. split; [|reflexivity]. unfold l_d1. rewrite Rmult_0_r, Ropp_0. ring.
  - intros k _. reflexivity.
Qed.
Lemma single_layer_given : forall mu0, 0 < mu0 -> given_right (single_layer mu0) 1 1 1 (fun _ => 1).
Proof.
  intros mu0 M. unfold given_right. cbn [single_layer a_mu0 a_qx a_ltau a_as0 a_atran]. refine (conj M (conj _ (conj _ _))); [intros; lra|intros; lra|]. intros j _. refine (conj _ (conj _ eq_refl)); lra.
Qed.
(** Hypotheses met *)
Example second_order_sample : given_right (single_layer (1 / 2)) 1 1 1 (fun _ => 1) /\ parallel (single_layer (1 / 2)) 1 /\ (exists u1 d1 u2, scattered_twice (single_layer (1 / 2)) 1 1 (fun _ => 1) 1 u1 d1 u2 /\ u2 0%nat 0 0%nat = l_u2 0).
Proof.
  refine (conj (single_layer_given (1 / 2) ltac:(lra)) (conj _ _)); [intros j _; cbn [single_layer a_as0 a_mu0]; lra|]. do 3 eexists. split; [apply single_layer_light|reflexivity].
Qed.
(** Where the slant of the beam is not that at the top, as in spherical atmospheres, one of two contributions is multiplied by the slant, the other by that
    at the top: the reported radiance is not that of light scattered twice.  Here the slant is 2 and the cosine at the top 1/4. *)
Theorem C61_spherical_refuted : exists sk u1 d1 u2 r, given_right sk 1 1 1 (cosine_of sk false) /\ (forall k q j, a_Ppm sk j k q = a_Pmp sk j k q) /\ scattered_twice sk 1 1 (cosine_of sk false) 1 u1 d1 u2 /\
  rtm_two_os sk 1 0 1 false false = Answer r /\ o_up_top r 0%nat < u2 0%nat 0 0%nat.
Proof.
  pose proof PI_RGT_0 as P.
  set (e := exp (- (1))). assert (0 < e) as E0 by apply exp_pos. assert (e < exp 0) as E1 by (apply exp_increasing; lra). rewrite exp_0 in E1.
  assert (forall mu0, 0 < mu0 -> exists r, rtm_two_os (single_layer mu0) 1 0 1 false false = Answer r /\ o_up_top r 0%nat = (1 - 4 * (e * (e * e))) / 9 + mu0 * (1 - 3 * (e * e) + 2 * (e * (e * e))) / 3) as V.
  { intros mu0 M. unfold rtm_two_os. rewrite (divisible_ok (single_layer mu0) 1 0 1 false (single_layer_given mu0 M)). eexists. split; [reflexivity|]. cbn [o_up_top offset n_xmus Nat.leb Nat.ltb Nat.add Nat.sub andb twice total once R_p single_layer a_Rs].
    unfold Psi1, Phi2, Phi3, w4_up, w4_down, Psi1, Phi2, Phi3, r_m, t_p, r_0, t_0, a_, alpha, beta, x, y, xmus. cbn [single_layer a_omega a_ltau a_as0 a_atran a_P0p a_P0m a_Ppp a_Pmp a_Ppm a_F0 a_mu0 a_qx a_qw a_zeroth].
    destruct (Req_EM_T (1 / 1) (1 / 1)) as [_|n]; [|contradiction]. destruct (Req_EM_T 2 (1 / 1)) as [f|_]; [exfalso; lra|].
    replace (- (1) * (1 / 1)) with (- (1)) by field. replace (- (1) * 2) with (- (1) + - (1)) by ring. rewrite !exp_plus. fold e. field. lra. }
  destruct (V (1 / 4) ltac:(lra)) as (r & R0 & R1). destruct (V (1 / 2) ltac:(lra)) as (r' & R0' & R1').
  destruct (C61_second_order (single_layer (1 / 2)) 1 0 1 false false _ _ _ (single_layer_given (1 / 2) ltac:(lra)) (proj1 (proj2 second_order_sample)) (or_intror (fun _ _ _ _ _ _ => eq_refl)) (single_layer_light (1 / 2))) as (r2 & R2 & R3 & _).
  rewrite R0' in R2. injection R2 as <-. specialize (R3 0%nat ltac:(cbn [number_of]; lia)). cbn [Nat.add Nat.eqb] in R3.
  exists (single_layer (1 / 4)). do 3 eexists. exists r. refine (conj (single_layer_given (1 / 4) ltac:(lra)) (conj (fun _ _ _ => eq_refl) (conj (single_layer_light (1 / 4)) (conj R0 _)))). cbn [Nat.eqb]. rewrite <- R3, R1, R1'.
  assert (0 < (1 - e) * (1 - e) * (1 + 2 * e)) by (apply Rmult_lt_0_compat; [apply Rmult_lt_0_compat; lra|lra]). lra.
Qed.
Print Assumptions C61_spherical_refuted.
