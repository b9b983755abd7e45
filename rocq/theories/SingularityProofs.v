(** The singularity adjustment of src/xrtm_utility.c:358-381 in double arithmetic: which
    comparisons are exact and how far the moved value lands.  Proof support for C28. *)
From Coq Require Import ZArith Reals Bool List Lia Lra SpecFloat.
From Flocq Require Import Core BinarySingleNaN Sterbenz.
From Verif Require Import Dbl DblReal.
Import ListNotations.
Open Scope R_scope.

Local Notation prec := 53%Z.
Local Notation emax := 1024%Z.
Local Instance Hprec : FLX.Prec_gt_0 prec := eq_refl _.
Local Instance Hmax : Prec_lt_emax prec emax := eq_refl _.
Local Notation bin := (binary_float prec emax).
Local Notation fexp := (SpecFloat.fexp prec emax).
Local Notation rnd := (round radix2 fexp (round_mode mode_NE)).

(** Half a unit in the last place of the numbers in [1, 2). *)
Definition half_ulp : R := / 9007199254740992.
(** The threshold, as a real number. *)
Definition tol : R := valR d_1em5.

Lemma tol_val : tol = 5902958103587057 / 590295810358705651712.
Proof.
  unfold tol, valR, d_1em5, SF2R, F2R. cbn [Fnum Fexp cond_Zopp]. unfold bpow.
  change (Z.pow_pos radix2 69) with 590295810358705651712%Z. field.
Qed.
Lemma one_val : valR d_one = 1.
Proof.
  unfold valR, d_one, SF2R, F2R. cbn [Fnum Fexp cond_Zopp]. unfold bpow.
  change (Z.pow_pos radix2 52) with 4503599627370496%Z. field.
Qed.
Lemma tol_range : 1 / 100001 < tol < 1 / 99999.
Proof. rewrite tol_val. split; lra. Qed.
Lemma half_ulp_range : 0 < half_ulp < tol / 100000000.
Proof. rewrite tol_val. unfold half_ulp. split; lra. Qed.

Lemma valR_fin m p : valR (S754_finite false m (Zneg p)) = IZR (Zpos m) / IZR (Z.pow_pos 2 p).
Proof. reflexivity. Qed.

Lemma rnd_error x : Rabs x < 2 -> Rabs (rnd x - x) <= half_ulp.
Proof.
  intro H. destruct (Req_dec x 0) as [->|N].
  { rewrite round_0 by apply valid_rnd_round_mode. rewrite Rminus_0_r, Rabs_R0. pose proof half_ulp_range. lra. }
  assert (E : Rabs (rnd x - x) <= / 2 * ulp radix2 fexp x).
  { apply error_le_half_ulp. apply fexp_correct. exact Hprec. }
  rewrite ulp_neq_0 in E by exact N. unfold cexp in E.
  assert (M : (mag radix2 x <= 1)%Z).
  { apply mag_le_bpow; auto. }
  assert (F : (fexp (mag radix2 x) <= -52)%Z).
  { unfold SpecFloat.fexp, SpecFloat.emin. lia. }
  apply (bpow_le radix2) in F. change (bpow radix2 (-52)) with (/ 4503599627370496) in F.
  unfold half_ulp. lra.
Qed.

Lemma rnd_le x y : x <= y -> rnd x <= rnd y.
Proof. apply round_le; [apply fexp_correct; exact Hprec|apply valid_rnd_round_mode]. Qed.
Lemma rnd_dbl (b : bin) : rnd (B2R b) = B2R b.
Proof. apply round_generic; [apply valid_rnd_round_mode|apply generic_format_B2R]. Qed.

Lemma no_overflow x : Rabs x < 2 -> Rabs (rnd x) < bpow radix2 emax.
Proof.
  intro H. pose proof (rnd_error x H). pose proof half_ulp_range as U. pose proof tol_range as T.
  apply Rlt_le_trans with 4. 
  - replace (rnd x) with ((rnd x - x) + x) by ring. eapply Rle_lt_trans; [apply Rabs_triang|]. lra.
  - change 4 with (bpow radix2 2). apply bpow_le. lia.
Qed.

(** The rounded operations on numbers whose exact result is below 2 in size. *)
Lemma dsub_val x y : valid x -> valid y -> finite x -> finite y -> Rabs (valR x - valR y) < 2 ->
  valid (dsub x y) /\ finite (dsub x y) /\ valR (dsub x y) = rnd (valR x - valR y).
Proof.
  intros X Y FX FY H. split; [now apply dsub_valid|].
  destruct (of_valid x X) as [a <-], (of_valid y Y) as [b <-]. rewrite sub_equiv. rewrite !valR_B in *. apply fin_B in FX, FY.
  pose proof (Bminus_correct prec emax Hprec Hmax mode_NE a b FX FY) as B.
  rewrite Rlt_bool_true in B by now apply no_overflow. destruct B as (E & F & _). split; [now apply fin_B|exact E].
Qed.
Lemma dadd_val x y : valid x -> valid y -> finite x -> finite y -> Rabs (valR x + valR y) < 2 ->
  valid (dadd x y) /\ finite (dadd x y) /\ valR (dadd x y) = rnd (valR x + valR y).
Proof.
  intros X Y FX FY H. split; [now apply dadd_valid|].
  destruct (of_valid x X) as [a <-], (of_valid y Y) as [b <-]. rewrite add_equiv. rewrite !valR_B in *. apply fin_B in FX, FY.
  pose proof (Bplus_correct prec emax Hprec Hmax mode_NE a b FX FY) as B.
  rewrite Rlt_bool_true in B by now apply no_overflow. destruct B as (E & F & _). split; [now apply fin_B|exact E].
Qed.
Lemma rnd_valR x : valid x -> rnd (valR x) = valR x.
Proof. intro X. destruct (of_valid x X) as [a <-]. rewrite valR_B. apply rnd_dbl. Qed.

Lemma dabs_val x : valid x -> valid (dabs x) /\ valR (dabs x) = Rabs (valR x).
Proof.
  intro X. destruct (of_valid x X) as [a <-]. change (dabs (B2SF a)) with (SFabs (B2SF a)).
  destruct a as [s|s| |s m e H]; cbn [SFabs B2SF]; split; try reflexivity; try (unfold valR; cbn; now rewrite Rabs_R0).
  - exact X.
  - unfold valR. cbn. rewrite <- F2R_Zabs. now destruct s.
Qed.
Lemma dabs_finite x : finite x -> finite (dabs x).
Proof. destruct x; cbn; auto. Qed.
Lemma dabs_pos x : 0 < valR x -> dabs x = x.
Proof.
  destruct x as [s|s| |s m e]; unfold valR; cbn; intro H; try lra. destruct s; [|reflexivity].
  exfalso. assert (F2R (beta := radix2) {| Fnum := Z.neg m; Fexp := e |} < 0) by (apply F2R_lt_0; reflexivity). cbn in *. lra.
Qed.

(** A cosine of an angle below 90 degrees; a node that far enough from zero. *)
Definition cos_ok (m : dbl) : Prop := valid m /\ finite m /\ 0 < valR m <= 1.
Definition node_ok (q : dbl) : Prop := valid q /\ finite q /\ 2 * tol <= valR q <= 1.

Definition moved (q m : dbl) : dbl := dabs (singularity_adjust_auto q m d_1em5).

Lemma eps_facts : valid d_1em5 /\ finite d_1em5 /\ valid (dneg d_1em5) /\ finite (dneg d_1em5) /\ valR (dneg d_1em5) = - tol.
Proof.
  split; [reflexivity|]. split; [exact I|]. split; [reflexivity|]. split; [exact I|].
  rewrite tol_val. unfold valR, d_1em5, dneg, SFopp, SF2R, F2R. cbn [Fnum Fexp cond_Zopp negb]. unfold bpow.
  change (Z.pow_pos radix2 69) with 590295810358705651712%Z. cbn [Z.opp]. field.
Qed.

(** The difference is exact near the node. *)
Lemma near_exact q m : node_ok q -> cos_ok m -> Rabs (valR q - valR m) < tol -> valR (dsub q m) = valR q - valR m.
Proof.
  intros (Vq & Fq & Rq) (Vm & Fm & Rm) H. pose proof tol_range as T.
  assert (B : Rabs (valR q - valR m) < 2) by lra.
  destruct (dsub_val q m Vq Vm Fq Fm B) as (_ & _ & ->).
  apply round_generic; [apply valid_rnd_round_mode|].
  apply Rabs_lt_inv in H.
  destruct (of_valid q Vq) as [a <-], (of_valid m Vm) as [b <-]. rewrite !valR_B in *.
  apply sterbenz; try apply generic_format_B2R; try (apply fexp_correct; exact Hprec).
  - apply fexp_monotone. 
  - lra.
Qed.

Lemma far_kept q m : node_ok q -> cos_ok m -> tol <= Rabs (valR q - valR m) -> singularity_adjust_auto q m d_1em5 = m.
Proof.
  intros (Vq & Fq & Rq) (Vm & Fm & Rm) H. pose proof tol_range as T.
  assert (B : Rabs (valR q - valR m) < 2) by (apply Rabs_lt; lra).
  destruct (dsub_val q m Vq Vm Fq Fm B) as (V & F & E).
  destruct eps_facts as (E1 & E2 & E3 & E4 & E5).
  unfold singularity_adjust_auto. cbv zeta.
  destruct (Rle_lt_dec 0 (valR q - valR m)) as [P|P].
  - rewrite Rabs_pos_eq in H by exact P.
    assert (G : tol <= valR (dsub q m)).
    { rewrite E. unfold tol at 1. rewrite <- (rnd_valR d_1em5) by exact E1. now apply rnd_le. }
    assert (L : dlt (dsub q m) d_zero = false).
    { apply not_true_is_false. intro C. apply dlt_R in C; auto; try exact I; try reflexivity. change (valR d_zero) with 0 in C. lra. }
    assert (L2 : dlt (dsub q m) d_1em5 = false).
    { apply not_true_is_false. intro C. apply dlt_R in C; auto. fold tol in C. lra. }
    rewrite L, L2. cbn [andb]. now rewrite andb_false_r.
  - rewrite Rabs_left in H by exact P.
    assert (G : valR (dsub q m) <= - tol).
    { rewrite E, <- E5, <- (rnd_valR (dneg d_1em5)) by exact E3. apply rnd_le. rewrite E5. lra. }
    assert (L : dgt (dsub q m) (dneg d_1em5) = false).
    { apply not_true_is_false. intro C. change (dlt (dneg d_1em5) (dsub q m) = true) in C.
      apply dlt_R in C; auto. lra. }
    assert (L2 : dge (dsub q m) d_zero = false).
    { apply not_true_is_false. intro C. change (dle d_zero (dsub q m) = true) in C.
      apply dle_R in C; auto; try exact I; try reflexivity. change (valR d_zero) with 0 in C. lra. }
    rewrite L, L2. now rewrite andb_false_r.
Qed.

Lemma near_moved q m : node_ok q -> cos_ok m -> Rabs (valR q - valR m) < tol ->
  valid (moved q m) /\ finite (moved q m) /\
  (valR q < valR m -> Rabs (valR (moved q m) - (valR q + tol)) <= half_ulp) /\
  (valR m <= valR q -> Rabs (valR (moved q m) - (valR q - tol)) <= half_ulp).
Proof.
  intros Q M H. pose proof (near_exact q m Q M H) as E. destruct Q as (Vq & Fq & Rq), M as (Vm & Fm & Rm).
  pose proof tol_range as T. pose proof half_ulp_range as U.
  assert (B : Rabs (valR q - valR m) < 2) by lra.
  destruct (dsub_val q m Vq Vm Fq Fm B) as (V & F & _).
  destruct eps_facts as (E1 & E2 & E3 & E4 & E5). apply Rabs_lt_inv in H.
  unfold moved, singularity_adjust_auto. cbv zeta.
  destruct (Rlt_le_dec (valR q) (valR m)) as [P|P].
  - assert (L : dlt (dsub q m) d_zero = true).
    { apply dlt_R; auto; try exact I; try reflexivity. rewrite E. change (valR d_zero) with 0. lra. }
    assert (L2 : dgt (dsub q m) (dneg d_1em5) = true).
    { change (dlt (dneg d_1em5) (dsub q m) = true). apply dlt_R; auto. rewrite E, E5. lra. }
    rewrite L, L2. cbn [andb].
    assert (B2 : Rabs (valR q + valR d_1em5) < 2) by (fold tol; apply Rabs_lt; lra).
    destruct (dadd_val q d_1em5 Vq E1 Fq E2 B2) as (V' & F' & E'). fold tol in E'.
    destruct (dabs_val _ V') as (V2 & E6). split; [exact V2|]. split; [now apply dabs_finite|].
    assert (C : Rabs (valR (dabs (dadd q d_1em5)) - (valR q + tol)) <= half_ulp).
    { pose proof (rnd_error _ B2) as R1. fold tol in R1. rewrite E6, E'. rewrite (Rabs_pos_eq (rnd _)); [exact R1|].
      apply Rabs_le_inv in R1. lra. }
    split; intro; [exact C|lra].
  - assert (L : dlt (dsub q m) d_zero = false).
    { apply not_true_is_false. intro C. apply dlt_R in C; auto; try exact I; try reflexivity. change (valR d_zero) with 0 in C. lra. }
    assert (L2 : dge (dsub q m) d_zero = true).
    { change (dle d_zero (dsub q m) = true). apply dle_R; auto; try exact I; try reflexivity. rewrite E. change (valR d_zero) with 0. lra. }
    assert (L3 : dlt (dsub q m) d_1em5 = true).
    { apply dlt_R; auto. rewrite E. fold tol. lra. }
    rewrite L, L2, L3. cbn [andb].
    assert (B2 : Rabs (valR q - valR d_1em5) < 2) by (fold tol; apply Rabs_lt; lra).
    destruct (dsub_val q d_1em5 Vq E1 Fq E2 B2) as (V' & F' & E'). fold tol in E'.
    destruct (dabs_val _ V') as (V2 & E6). split; [exact V2|]. split; [now apply dabs_finite|].
    assert (C : Rabs (valR (dabs (dsub q d_1em5)) - (valR q - tol)) <= half_ulp).
    { pose proof (rnd_error _ B2) as R1. fold tol in R1. rewrite E6, E'. rewrite (Rabs_pos_eq (rnd _)); [exact R1|].
      apply Rabs_le_inv in R1. lra. }
    split; intro; [lra|exact C].
Qed.

(** [hit]: the loop counts the node. *)
Definition hit (q m : dbl) : bool := negb (deq (moved q m) m).

Lemma far_no_hit q m : node_ok q -> cos_ok m -> tol <= Rabs (valR q - valR m) -> hit q m = false.
Proof.
  intros Q M H. unfold hit, moved. rewrite far_kept by auto. destruct M as (V & F & P). rewrite dabs_pos by lra.
  apply negb_false_iff. now apply deq_R.
Qed.
Lemma close_hit q m : node_ok q -> cos_ok m -> Rabs (valR q - valR m) < tol - half_ulp -> hit q m = true.
Proof.
  intros Q M H. pose proof half_ulp_range as U. destruct (near_moved q m Q M ltac:(lra)) as (V & F & A & B).
  unfold hit. apply negb_true_iff, not_true_is_false. intro C. destruct M as (Vm & Fm & P). apply deq_R in C; auto.
  rewrite C in A, B. apply Rabs_lt_inv in H.
  destruct (Rlt_le_dec (valR q) (valR m)) as [D|D].
  - specialize (A D). apply Rabs_le_inv in A. lra.
  - specialize (B D). apply Rabs_le_inv in B. lra.
Qed.
(** A counted node ends up the threshold away; one that is not counted is that far from the requested value already. *)
Lemma hit_distance q m : node_ok q -> cos_ok m -> hit q m = true ->
  Rabs (valR q - valR m) < tol /\ Rabs (Rabs (valR (moved q m) - valR q) - tol) <= half_ulp /\
  Rabs (valR (moved q m) - valR m) <= tol + half_ulp.
Proof.
  intros Q M H. destruct (Rlt_le_dec (Rabs (valR q - valR m)) tol) as [D|D]; [|now rewrite far_no_hit in H by auto].
  split; [exact D|]. destruct (near_moved q m Q M D) as (V & F & A & B). pose proof half_ulp_range as U. pose proof tol_range as T.
  apply Rabs_lt_inv in D.
  destruct (Rlt_le_dec (valR q) (valR m)) as [C|C]; [specialize (A C); apply Rabs_le_inv in A|specialize (B C); apply Rabs_le_inv in B].
  - split; [|apply Rabs_le; lra]. rewrite (Rabs_pos_eq (_ - valR q)) by lra. apply Rabs_le. lra.
  - split; [|apply Rabs_le; lra]. rewrite (Rabs_left1 (_ - valR q)) by lra. apply Rabs_le. lra.
Qed.
Lemma no_hit_distance q m : node_ok q -> cos_ok m -> hit q m = false -> tol - half_ulp <= Rabs (valR q - valR m).
Proof.
  intros Q M H. destruct (Rlt_le_dec (Rabs (valR q - valR m)) (tol - half_ulp)) as [D|D]; [|exact D].
  now rewrite close_hit in H by auto.
Qed.
