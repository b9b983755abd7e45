(** Order facts about rounded addition and subtraction, through Flocq's proof that
    [SpecFloat] computes the correctly rounded result.  Proof support only. *)
From Coq Require Import ZArith Reals Bool Lia Lra SpecFloat.
From Flocq Require Import Core BinarySingleNaN.
From Verif Require Import Dbl.
Open Scope Z_scope.

Local Notation prec := 53.
Local Notation emax := 1024.
Local Instance Hprec : FLX.Prec_gt_0 prec := eq_refl _.
Local Instance Hmax : Prec_lt_emax prec emax := eq_refl _.
Local Notation bin := (binary_float prec emax).

(** A spec_float that is a binary64 number. *)
Definition valid (x : dbl) : Prop := SpecFloat.valid_binary prec emax x = true.
Definition nan (x : dbl) : Prop := x = S754_nan.
Definition finite (x : dbl) : Prop := match x with S754_zero _ | S754_finite _ _ _ => True | _ => False end.

Lemma of_valid : forall x, valid x -> exists b : bin, B2SF b = x.
Proof. intros x H. exists (SF2B x H). apply B2SF_SF2B. Qed.
Lemma valid_of : forall b : bin, valid (B2SF b).
Proof. apply valid_binary_B2SF. Qed.

Lemma round_aux_equiv sx mx ex lx :
  SpecFloat.binary_round_aux prec emax sx mx ex lx = binary_round_aux prec emax mode_NE sx mx ex lx.
Proof.
  unfold SpecFloat.binary_round_aux, binary_round_aux. set (m := shr_fexp _ _ _). case m; intros mrs e; simpl.
  replace (round_nearest_even (shr_m mrs) (loc_of_shr_record mrs)) with (choice_mode mode_NE sx (shr_m mrs) (loc_of_shr_record mrs)); [reflexivity|].
  case (loc_of_shr_record mrs); [reflexivity|]. intros c. case c; [|reflexivity..].
  simpl. unfold Round.cond_incr. now case Z.even.
Qed.
Lemma normalize_equiv m e szero :
  SpecFloat.binary_normalize prec emax m e szero = B2SF (binary_normalize prec emax Hprec Hmax mode_NE m e szero).
Proof.
  assert (forall s p, SpecFloat.binary_round prec emax s p e = binary_round prec emax mode_NE s p e) as R.
  { intros. unfold SpecFloat.binary_round, binary_round, shl_align_fexp. set (x := shl_align _ _ _). case x. intros. apply round_aux_equiv. }
  case m as [|p|p]; [reflexivity|simpl; rewrite B2SF_SF2B; apply R..].
Qed.
Lemma add_equiv : forall x y : bin, dadd (B2SF x) (B2SF y) = B2SF (Bplus mode_NE x y).
Proof.
  intros [sx|sx| |sx mx ex Bx] [sy|sy| |sy my ey By]; try reflexivity; try (simpl; case Bool.eqb; reflexivity).
  apply normalize_equiv.
Qed.
Lemma sub_equiv : forall x y : bin, dsub (B2SF x) (B2SF y) = B2SF (Bminus mode_NE x y).
Proof.
  intros [sx|sx| |sx mx ex Bx] [sy|sy| |sy my ey By]; try reflexivity; try (simpl; case Bool.eqb; reflexivity).
  unfold dsub. simpl. unfold Zminus. rewrite <- cond_Zopp_negb. apply normalize_equiv.
Qed.

Lemma dadd_valid : forall x y, valid x -> valid y -> valid (dadd x y).
Proof.
  intros x y X Y. destruct (of_valid x X) as [a <-], (of_valid y Y) as [b <-]. rewrite add_equiv. apply valid_of.
Qed.
Lemma dsub_valid : forall x y, valid x -> valid y -> valid (dsub x y).
Proof.
  intros x y X Y. destruct (of_valid x X) as [a <-], (of_valid y Y) as [b <-]. rewrite sub_equiv. apply valid_of.
Qed.

Definition valR (x : dbl) : R := SF2R radix2 x.
Lemma valR_B : forall b : bin, valR (B2SF b) = B2R b.
Proof. intros. unfold valR. apply SF2R_B2SF. Qed.
Lemma fin_B : forall b : bin, finite (B2SF b) <-> is_finite b = true.
Proof. intros [| | |]; simpl; intuition discriminate. Qed.

Lemma dle_R : forall x y, valid x -> valid y -> finite x -> finite y -> (dle x y = true <-> (valR x <= valR y)%R).
Proof.
  intros x y X Y FX FY. destruct (of_valid x X) as [a <-], (of_valid y Y) as [b <-]. apply fin_B in FX, FY.
  rewrite !valR_B. change (dle (B2SF a) (B2SF b)) with (Bleb a b). rewrite Bleb_correct by auto.
  case Rle_bool_spec; intros; split; auto; try discriminate; intros; lra.
Qed.
Lemma dlt_R : forall x y, valid x -> valid y -> finite x -> finite y -> (dlt x y = true <-> (valR x < valR y)%R).
Proof.
  intros x y X Y FX FY. destruct (of_valid x X) as [a <-], (of_valid y Y) as [b <-]. apply fin_B in FX, FY.
  rewrite !valR_B. change (dlt (B2SF a) (B2SF b)) with (Bltb a b). rewrite Bltb_correct by auto.
  case Rlt_bool_spec; intros; split; auto; try discriminate; intros; lra.
Qed.
Lemma deq_R : forall x y, valid x -> valid y -> finite x -> finite y -> (deq x y = true <-> valR x = valR y).
Proof.
  intros x y X Y FX FY. destruct (of_valid x X) as [a <-], (of_valid y Y) as [b <-]. apply fin_B in FX, FY.
  rewrite !valR_B. change (deq (B2SF a) (B2SF b)) with (Beqb a b). rewrite Beqb_correct by auto.
  case Req_bool_spec; intros; split; auto; try discriminate; intros; lra.
Qed.

Lemma fexp_B2R : forall b : bin, generic_format radix2 (SpecFloat.fexp prec emax) (B2R b).
Proof. apply generic_format_B2R. Qed.

(** Sums of non-negative numbers do not shrink. *)
Lemma nonneg_cases : forall x, dle d_zero x = true -> x = S754_infinity false \/ finite x.
Proof. intros [s|[]| |s m e] H; try discriminate; auto; right; exact Logic.I. Qed.

Lemma dadd_grows : forall a x, valid a -> valid x -> dle d_zero a = true -> dle d_zero x = true ->
  dle a (dadd a x) = true /\ dle d_zero (dadd a x) = true.
Proof.
  intros a x A X P Q.
  destruct (nonneg_cases a P) as [->|FA].
  { destruct x as [s|[]| |s m e]; try discriminate; split; reflexivity. }
  destruct (nonneg_cases x Q) as [->|FX].
  { destruct a as [s|[]| |s m e]; try contradiction; destruct s; split; reflexivity. }
  assert (valR d_zero = 0%R) as Z0 by reflexivity.
  assert (valid d_zero) as VZ by reflexivity.
  apply dle_R in P, Q; try exact Logic.I; auto. rewrite Z0 in P, Q.
  destruct (of_valid a A) as [ba <-], (of_valid x X) as [bx <-]. rewrite add_equiv. rewrite valR_B in P, Q.
  apply fin_B in FA, FX.
  assert (B := Bplus_correct prec emax Hprec Hmax mode_NE ba bx FA FX).
  revert B. case Rlt_bool_spec; intros LT B.
  - destruct B as (E & F & _).
    assert (B2R ba <= B2R (Bplus mode_NE ba bx))%R as G.
    { rewrite E. rewrite <- (round_generic radix2 (SpecFloat.fexp prec emax) (round_mode mode_NE) (B2R ba)) at 1 by apply fexp_B2R.
      apply round_le; [apply fexp_correct; exact Hprec|apply valid_rnd_round_mode|lra]. }
    split; apply dle_R; auto using valid_of; try exact Logic.I; try (now apply fin_B); rewrite !valR_B; rewrite ?Z0; lra.
  - destruct B as (E & S). rewrite E.
    assert (Bsign ba = false) as SA.
    { destruct ba as [s| | |s m e H]; try discriminate.
      - destruct s; [|reflexivity]. simpl in S. destruct bx as [s'| | |s' m' e' H']; try discriminate.
        exfalso. apply (Rle_not_lt _ _ LT). change (B2R _) with 0%R. change (B2R _) with 0%R.
          replace (0 + 0)%R with 0%R by ring. rewrite round_0; [|apply valid_rnd_round_mode]. rewrite Rabs_R0. apply bpow_gt_0.
      - destruct s; [|reflexivity]. exfalso. simpl in P.
        assert (F2R (beta:=radix2) {| Fnum := Z.neg m; Fexp := e |} < 0)%R by (apply F2R_lt_0; reflexivity). lra. }
    rewrite SA. simpl. destruct ba as [s| | |s m e H]; try discriminate; simpl in SA; rewrite ?SA; split; reflexivity.
Qed.

(** A difference is not negative when the first operand is at least the second. *)
Lemma dsub_nonneg : forall a b, valid a -> valid b -> finite a -> dle d_zero b = true -> dle b a = true ->
  dle d_zero (dsub a b) = true.
Proof.
  intros a b A B FA P Q.
  destruct (nonneg_cases b P) as [->|FB].
  { destruct a as [s|[]| |s m e]; try contradiction; destruct s; discriminate. }
  assert (valR d_zero = 0%R) as Z0 by reflexivity.
  assert (valid d_zero) as VZ by reflexivity.
  apply dle_R in P, Q; try exact Logic.I; auto. rewrite Z0 in P.
  destruct (of_valid a A) as [ba <-], (of_valid b B) as [bb <-]. rewrite sub_equiv. rewrite valR_B in P. rewrite !valR_B in Q.
  apply fin_B in FA, FB.
  assert (C := Bminus_correct prec emax Hprec Hmax mode_NE ba bb FA FB).
  revert C. case Rlt_bool_spec; intros LT C.
  - destruct C as (E & F & _).
    assert (0 <= B2R (Bminus mode_NE ba bb))%R as G.
    { rewrite E. rewrite <- (round_0 radix2 (SpecFloat.fexp prec emax) (round_mode mode_NE)).
      apply round_le; [apply fexp_correct; exact Hprec|apply valid_rnd_round_mode|lra]. }
    apply dle_R; auto using valid_of; try exact Logic.I; try (now apply fin_B); rewrite !valR_B; rewrite ?Z0; lra.
  - exfalso. apply (Rle_not_lt _ _ LT).
    assert (round radix2 (SpecFloat.fexp prec emax) (round_mode mode_NE) (B2R ba - B2R bb) <= B2R ba)%R as U.
    { rewrite <- (round_generic radix2 (SpecFloat.fexp prec emax) (round_mode mode_NE) (B2R ba)) at 2 by apply fexp_B2R.
      apply round_le; [apply fexp_correct; exact Hprec|apply valid_rnd_round_mode|lra]. }
    assert (0 <= round radix2 (SpecFloat.fexp prec emax) (round_mode mode_NE) (B2R ba - B2R bb))%R as L.
    { rewrite <- (round_0 radix2 (SpecFloat.fexp prec emax) (round_mode mode_NE)) at 1.
      apply round_le; [apply fexp_correct; exact Hprec|apply valid_rnd_round_mode|lra]. }
    rewrite Rabs_pos_eq by exact L. eapply Rle_lt_trans; [exact U|].
    eapply Rle_lt_trans; [apply Rle_abs|]. apply abs_B2R_lt_emax.
Qed.
