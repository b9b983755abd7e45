(** Proofs about the configuration checks. *)
From Coq Require Import ZArith NArith List Bool Lia.
From Verif Require Import Base OptionsModel OptionsSpec.
Import ListNotations.
Open Scope N_scope.

Lemma tst_bit o k : tst o (bit k) = N.testbit o k.
Proof.
  unfold tst, bit.
  destruct (N.testbit o k) eqn:E.
  - assert (H : N.land o (N.shiftl 1 k) <> 0).
    { intro H0. assert (N.testbit (N.land o (N.shiftl 1 k)) k = false) by (rewrite H0; apply N.bits_0).
      rewrite N.land_spec, E, N.shiftl_spec_high', N.sub_diag in H by lia. discriminate. }
    apply N.eqb_neq in H. now rewrite H.
  - assert (H : N.land o (N.shiftl 1 k) = 0).
    { apply N.bits_inj. intro n. rewrite N.bits_0, N.land_spec.
      destruct (N.eq_dec n k) as [->|Hn]; [now rewrite E|].
      rewrite N.shiftl_1_l, N.pow2_bits_false by congruence. apply andb_false_r. }
    now rewrite H.
Qed.

Lemma tst_lor o a b : tst o (N.lor a b) = tst o a || tst o b.
Proof.
  unfold tst. rewrite N.land_lor_distr_r.
  destruct (N.land o a =? 0) eqn:Ea; destruct (N.land o b =? 0) eqn:Eb; cbn;
    rewrite ?N.eqb_eq, ?N.eqb_neq in *; try (rewrite Ea); try rewrite Eb; auto.
  - assert (H : N.lor 0 (N.land o b) <> 0) by (rewrite N.lor_0_l; auto).
    apply N.eqb_neq in H. now rewrite H.
  - rewrite N.lor_0_r. apply N.eqb_neq in Ea. now rewrite Ea.
  - assert (H : N.lor (N.land o a) (N.land o b) <> 0) by (intro H; apply N.lor_eq_0_iff in H; tauto).
    apply N.eqb_neq in H. now rewrite H.
Qed.

Definition onb (o : N) (x : opt) : bool := N.testbit o (opt_index x).
Lemma on_iff o x : on o x <-> onb o x = true. Proof. reflexivity. Qed.
Lemma onb_dec o x : {on o x} + {~ on o x}.
Proof. unfold on. destruct (N.testbit o (opt_index x)); [left|right]; congruence. Qed.

(** Rewrite every mask test into a test on a named option. *)
Ltac to_bits :=
  unfold OPT_CALC_DERIVS, OPT_REVERSE_DERIVS, OPT_DELTA_M, OPT_N_T_TMS, OPT_FOUR_CONV_OLD,
    OPT_FOUR_CONV_NEW, OPT_NO_AZIMUTHAL, OPT_OUTPUT_AT_LEVELS, OPT_OUTPUT_AT_TAUS,
    OPT_PART_SOL_CLASSICAL, OPT_PART_SOL_GREENS, OPT_PHASE_SCALAR, OPT_PHASE_MATRIX_GC,
    OPT_PHASE_MATRIX_LC, OPT_PSA, OPT_QUAD_NORM_GAUS_LEG, OPT_QUAD_DOUB_GAUS_LEG,
    OPT_QUAD_LOBATTO, OPT_SAVE_LEG_POLYS, OPT_SAVE_PHASE_MATS, OPT_SAVE_LOCAL_R_T,
    OPT_SAVE_LAYER_R_T_S, OPT_SAVE_TOTAL_R_T_S, OPT_SFI, OPT_SOURCE_SOLAR, OPT_SOURCE_THERMAL,
    OPT_STACK_REUSE_ADDING, OPT_TOP_DOWN_ADDING, OPT_BOTTOM_UP_ADDING, OPT_UPWELLING_OUTPUT,
    OPT_DOWNWELLING_OUTPUT, OPT_VECTOR in *;
  rewrite ?tst_lor, ?tst_bit in *.

Lemma if_ret (b : bool) (e r : Z) : e <> RET_OK -> ((if b then e else r) = RET_OK <-> b = false /\ r = RET_OK).
Proof. intro He. destruct b; intuition congruence. Qed.

Lemma RET_ERR_ok : RET_ERR <> RET_OK. Proof. discriminate. Qed.
Lemma RET_M1_ok : RET_M1 <> RET_OK. Proof. discriminate. Qed.

Lemma exactly_one_2 o a b : a <> b ->
  (exactly_one o [a; b] <-> (onb o a || onb o b) = true /\ (onb o a && onb o b) = false).
Proof.
  intro Hab. unfold exactly_one, on, onb. split.
  - intros (x & Hin & Hx & Hu).
    destruct Hin as [<-|[<-|[]]].
    + rewrite Hx. split; auto. cbn.
      destruct (N.testbit o (opt_index b)) eqn:E; auto.
      exfalso. apply Hab. symmetry. apply Hu; cbn; auto.
    + rewrite Hx. split; [apply orb_true_r|]. rewrite andb_true_r.
      destruct (N.testbit o (opt_index a)) eqn:E; auto.
      exfalso. apply Hab. apply Hu; cbn; auto.
  - intros [H1 H2].
    destruct (N.testbit o (opt_index a)) eqn:Ea; destruct (N.testbit o (opt_index b)) eqn:Eb;
      try discriminate.
    + exists a. split; [left; auto|]. split; auto. intros y [<-|[<-|[]]] Hy; congruence.
    + exists b. split; [right; left; auto|]. split; auto. intros y [<-|[<-|[]]] Hy; congruence.
Qed.

Lemma exactly_one_3 o a b c : a <> b -> a <> c -> b <> c ->
  (exactly_one o [a; b; c] <->
   (onb o a || (onb o b || onb o c)) = true /\
   (onb o a && onb o b || onb o a && onb o c || onb o b && onb o c) = false).
Proof.
  intros Hab Hac Hbc. unfold exactly_one, on, onb. split.
  - intros (x & Hin & Hx & Hu).
    assert (Ha : In a [a;b;c]) by (cbn; auto).
    assert (Hb : In b [a;b;c]) by (cbn; auto).
    assert (Hc : In c [a;b;c]) by (cbn; auto).
    pose proof (Hu a Ha). pose proof (Hu b Hb). pose proof (Hu c Hc).
    destruct (N.testbit o (opt_index a)) eqn:Ea; destruct (N.testbit o (opt_index b)) eqn:Eb;
      destruct (N.testbit o (opt_index c)) eqn:Ec; cbn; auto;
      try (exfalso; intuition congruence).
    exfalso. destruct Hin as [<-|[<-|[<-|[]]]]; congruence.
  - intros [H1 H2].
    destruct (N.testbit o (opt_index a)) eqn:Ea; destruct (N.testbit o (opt_index b)) eqn:Eb;
      destruct (N.testbit o (opt_index c)) eqn:Ec; try discriminate.
    + exists a. split; [cbn; auto|]. split; auto. intros y [<-|[<-|[<-|[]]]] Hy; congruence.
    + exists b. split; [cbn; auto|]. split; auto. intros y [<-|[<-|[<-|[]]]] Hy; congruence.
    + exists c. split; [cbn; auto|]. split; auto. intros y [<-|[<-|[<-|[]]]] Hy; congruence.
Qed.

Lemma some_of_2 o a b : some_of o [a; b] <-> (onb o a || onb o b) = true.
Proof.
  unfold some_of, on, onb. rewrite orb_true_iff. split.
  - intros (x & [<-|[<-|[]]] & H); auto.
  - intros [H|H]; [exists a|exists b]; cbn; auto.
Qed.

Lemma some_of_3 o a b c : some_of o [a; b; c] <-> (onb o a || (onb o b || onb o c)) = true.
Proof.
  unfold some_of, on, onb. rewrite !orb_true_iff. split.
  - intros (x & [<-|[<-|[<-|[]]]] & H); auto.
  - intros [H|[H|H]]; [exists a|exists b|exists c]; cbn; auto.
Qed.

Lemma not_both_b o a b : not_both o a b <-> (onb o a && onb o b) = false.
Proof.
  unfold not_both, on, onb. destruct (N.testbit o (opt_index a)), (N.testbit o (opt_index b));
    cbn; intuition congruence.
Qed.

Lemma check_options_exact o : check_options o = RET_OK <-> valid_options o.
Proof.
  unfold check_options. to_bits.
  rewrite !if_ret by exact RET_ERR_ok.
  split.
  - intros (H1&H2&H3&H4&H5&H6&H7&H8&H9&H10&H11&H12&H13&H14&H15&H16&H17&H18&_).
    apply negb_false_iff in H2, H4, H6, H8, H10, H16.
    constructor.
    + apply exactly_one_2; [discriminate|]. split; [exact H2|exact H3].
    + apply exactly_one_2; [discriminate|]. split; [exact H4|exact H5].
    + apply exactly_one_2; [discriminate|]. split; [exact H6|exact H7].
    + apply exactly_one_3; [discriminate..|]. split; [exact H8|exact H9].
    + apply exactly_one_3; [discriminate..|]. split; [exact H10|exact H11].
    + apply some_of_2. exact H16.
    + rewrite some_of_2. change (onb o Vector = true <-> onb o PhaseMatrixGc || onb o PhaseMatrixLc = true).
      change (negb (onb o Vector) && (onb o PhaseMatrixGc || onb o PhaseMatrixLc) = false) in H17.
      change (onb o Vector && negb (onb o PhaseMatrixGc || onb o PhaseMatrixLc) = false) in H18.
      destruct (onb o Vector), (onb o PhaseMatrixGc), (onb o PhaseMatrixLc); cbn in *; intuition congruence.
    + apply not_both_b. exact H1.
    + apply not_both_b. exact H12.
    + change (onb o StackReuse = true -> onb o CalcDerivs = true).
      change (onb o StackReuse && negb (onb o CalcDerivs) = false) in H13.
      destruct (onb o StackReuse), (onb o CalcDerivs); cbn in *; congruence.
    + apply not_both_b. exact H14.
    + apply not_both_b. exact H15.
  - intros [Hc Ho Hp Hph Hq Hd Hv Ht Hss Hsd Hst Htb].
    apply exactly_one_2 in Hc; [|discriminate].
    apply exactly_one_2 in Ho; [|discriminate].
    apply exactly_one_2 in Hp; [|discriminate].
    apply exactly_one_3 in Hph; [|discriminate..].
    apply exactly_one_3 in Hq; [|discriminate..].
    apply some_of_2 in Hd. rewrite some_of_2 in Hv.
    rewrite not_both_b in *. rewrite !negb_false_iff.
    repeat split; try tauto.
    + change (onb o StackReuse = true -> onb o CalcDerivs = true) in Hsd.
      change (onb o StackReuse && negb (onb o CalcDerivs) = false).
      destruct (onb o StackReuse), (onb o CalcDerivs); cbn in *; intuition congruence.
    + change (negb (onb o Vector) && (onb o PhaseMatrixGc || onb o PhaseMatrixLc) = false).
      change (onb o Vector = true <-> onb o PhaseMatrixGc || onb o PhaseMatrixLc = true) in Hv.
      destruct (onb o Vector), (onb o PhaseMatrixGc), (onb o PhaseMatrixLc); cbn in *; intuition congruence.
    + change (onb o Vector && negb (onb o PhaseMatrixGc || onb o PhaseMatrixLc) = false).
      change (onb o Vector = true <-> onb o PhaseMatrixGc || onb o PhaseMatrixLc = true) in Hv.
      destruct (onb o Vector), (onb o PhaseMatrixGc), (onb o PhaseMatrixLc); cbn in *; intuition congruence.
Qed.

Lemma check_options_codes o : check_options o = RET_OK \/ check_options o = RET_ERR.
Proof.
  unfold check_options.
  repeat match goal with |- context [if ?b then _ else _] => destruct b; [right; reflexivity|] end.
  left; reflexivity.
Qed.

(* ---------------------------------------------------------------- counts *)

Lemma check_counts_exact o mc nq ns nd nl nt :
  check_counts o mc nq ns nd nl nt = RET_OK <-> valid_counts o mc nq ns nd nl nt.
Proof.
  unfold check_counts. to_bits. rewrite !if_ret by exact RET_ERR_ok.
  split.
  - intros (H1&H2&H3&H4&H5&H6&H7&_).
    constructor; unfold on; cbn [opt_index]; intros.
    + rewrite H in H2. cbn in H2. apply Z.eqb_neq in H2. auto.
    + apply not_true_iff_false in H. rewrite H in H1. cbn in H1. lia.
    + rewrite H in H3. cbn [andb] in H3. lia.
    + rewrite H in H4. cbn in H4. lia.
    + destruct H as [H|H]; [rewrite H in H5; cbn in H5|rewrite H in H6; cbn in H6]; lia.
    + destruct (N.testbit o 31); auto. cbn in H7. lia.
  - unfold on. cbn [opt_index].
    intros [H1 H2 H3 H4 H5 H6]. unfold on in *. cbn [opt_index] in *.
    repeat split; auto.
    + destruct (N.testbit o 0) eqn:E; cbn; auto.
      assert (nd <= 0)%Z by (apply H2; congruence). lia.
    + destruct (N.testbit o 0) eqn:E; cbn; auto. specialize (H1 eq_refl). lia.
    + destruct (N.testbit o 2) eqn:E; cbn [andb]; auto. specialize (H3 eq_refl). lia.
    + destruct (N.testbit o 23) eqn:E; cbn; auto. specialize (H4 eq_refl). lia.
    + destruct (N.testbit o 27) eqn:E; cbn; auto. rewrite H5; auto.
    + destruct (N.testbit o 28) eqn:E; cbn; auto. rewrite H5; auto.
    + destruct (N.testbit o 31) eqn:E; cbn; auto.
      destruct (ns >? 1)%Z eqn:En; auto. assert (false = true) by (apply H6; lia). congruence.
Qed.

(* ---------------------------------------------------------------- solvers *)

Lemma bit_neq_0 k : (bit k =? 0) = false.
Proof. unfold bit. rewrite N.shiftl_1_l. apply N.eqb_neq. apply N.pow_nonzero. discriminate. Qed.

(** The scan succeeds exactly when no listed single-bit solver is requested. *)
Lemma va_ok s ks rest :
  check_solvers_va s (map bit ks ++ 0 :: rest) = RET_OK <->
  (forall k, In k ks -> N.testbit s k = false).
Proof.
  induction ks as [|k ks IH]; cbn [map app check_solvers_va].
  - rewrite N.eqb_refl. split; [intros _ k []|reflexivity].
  - rewrite bit_neq_0, tst_bit. destruct (N.testbit s k) eqn:E.
    + split; [discriminate|]. intro H. rewrite H in E; cbn; auto. discriminate.
    + rewrite IH. split.
      * intros H k' [<-|Hk]; auto.
      * intros H k' Hk. apply H. cbn; auto.
Qed.

Lemma guard_ok c s args code rest :
  code <> RET_OK ->
  (guard c s args code rest = RET_OK <->
   (c = true -> check_solvers_va s args = RET_OK) /\ rest = RET_OK).
Proof.
  intro Hc. unfold guard. destruct c; cbn [andb].
  - destruct (check_solvers_va s args =? 0)%Z eqn:E; cbn [negb].
    + apply Z.eqb_eq in E. intuition.
    + apply Z.eqb_neq in E. unfold RET_OK. intuition.
  - intuition discriminate.
Qed.

Lemma va_list s ks : check_solvers_va s (map bit ks ++ [0]) = RET_OK <-> (forall k, In k ks -> N.testbit s k = false).
Proof. apply va_ok. Qed.

Definition excl (c : bool) (s : N) (ks : list N) : Prop :=
  c = true -> forall k, In k ks -> N.testbit s k = false.

Lemma guard_excl c s ks code rest args :
  args = map bit ks ++ [0] -> code <> RET_OK ->
  (guard c s args code rest = RET_OK <-> excl c s ks /\ rest = RET_OK).
Proof.
  intros -> Hc. rewrite guard_ok by auto. unfold excl. rewrite va_list. reflexivity.
Qed.

Lemma check_solvers_excl o s nq nth nl nt :
  check_solvers o s nq nth nl nt = RET_OK <->
  excl (negb (nq =? 1)%Z) s [10] /\
  excl (negb (nq =? 2)%Z) s [3] /\
  excl (negb (nq =? 3)%Z) s [7] /\
  excl (negb (nth =? 1)%Z) s [1;2;3;4;5;6;7;8;9;10] /\
  excl (nl >? 2)%Z s [0;1;5;8;9] /\
  excl ((nt >? 0)%Z && negb (tst o OPT_SFI)) s [10;3;7] /\
  excl (tst o OPT_DELTA_M && negb (tst o OPT_N_T_TMS)) s [6] /\
  excl (tst o OPT_N_T_TMS) s [9] /\
  excl (tst o OPT_NO_AZIMUTHAL) s [6] /\
  excl (tst o OPT_OUTPUT_AT_TAUS) s [0;1;5;8] /\
  excl (tst o OPT_QUAD_LOBATTO) s [0;1;2;3;4;5;6;7;8;9;10] /\
  excl (tst o OPT_SFI) s [0;1;4;5;8] /\
  excl (negb (tst o OPT_SOURCE_SOLAR)) s [4;6;8;9] /\
  excl (tst o OPT_SOURCE_THERMAL) s [3;4;6;7;8;9;10] /\
  excl (tst o OPT_STACK_REUSE_ADDING) s [2;4;6;8;9] /\
  excl (tst o OPT_TOP_DOWN_ADDING) s [2;4;6;8;9] /\
  excl (tst o OPT_BOTTOM_UP_ADDING) s [2;4;6;8;9].
Proof.
  unfold check_solvers.
  rewrite (guard_excl _ _ [10]) by (reflexivity || discriminate).
  rewrite (guard_excl _ _ [3]) by (reflexivity || discriminate).
  rewrite (guard_excl _ _ [7]) by (reflexivity || discriminate).
  rewrite (guard_excl _ _ [1;2;3;4;5;6;7;8;9;10]) by (reflexivity || discriminate).
  rewrite (guard_excl _ _ [0;1;5;8;9]) by (reflexivity || discriminate).
  rewrite (guard_excl _ _ [10;3;7]) by (reflexivity || discriminate).
  rewrite (guard_excl _ _ [6]) by (reflexivity || discriminate).
  rewrite (guard_excl _ _ [9]) by (reflexivity || discriminate).
  rewrite (guard_excl _ _ [6]) by (reflexivity || discriminate).
  rewrite (guard_excl _ _ [0;1;5;8]) by (reflexivity || discriminate).
  rewrite (guard_excl _ _ [0;1;2;3;4;5;6;7;8;9;10]) by (reflexivity || discriminate).
  rewrite (guard_excl _ _ [0;1;4;5;8]) by (reflexivity || discriminate).
  rewrite (guard_excl _ _ [4;6;8;9]) by (reflexivity || discriminate).
  rewrite (guard_excl _ _ [3;4;6;7;8;9;10]) by (reflexivity || discriminate).
  rewrite (guard_excl _ _ [2;4;6;8;9]) by (reflexivity || discriminate).
  rewrite (guard_excl _ _ [2;4;6;8;9]) by (reflexivity || discriminate).
  rewrite (guard_excl _ _ [2;4;6;8;9]) by (reflexivity || discriminate).
  intuition.
Qed.

Lemma excl_use c s ks x : excl c s ks -> wants s x -> In (solver_index x) ks -> c = false.
Proof.
  unfold excl, wants. intros H Hw Hin. destruct c; auto.
  rewrite (H eq_refl _ Hin) in Hw. discriminate.
Qed.

Lemma excl_intro c s ks :
  (forall x, In (solver_index x) ks -> wants s x -> c = false) ->
  (forall k, In k ks -> exists x, solver_index x = k) ->
  excl c s ks.
Proof.
  unfold excl, wants. intros H Hall -> k Hk. destruct (Hall k Hk) as [x <-].
  destruct (N.testbit s (solver_index x)) eqn:E; auto. exfalso. specialize (H x Hk E). discriminate.
Qed.

Lemma idx_all k : k <= 10 -> exists x, solver_index x = k.
Proof.
  intro H.
  assert (k = 0 \/ k = 1 \/ k = 2 \/ k = 3 \/ k = 4 \/ k = 5 \/ k = 6 \/ k = 7 \/ k = 8 \/ k = 9 \/ k = 10) by lia.
  destruct H0 as [->|[->|[->|[->|[->|[->|[->|[->|[->|[->| ->]]]]]]]]]].
  - exists DoubAdd; auto.
  - exists EigAdd; auto.
  - exists EigBvp; auto.
  - exists FourStream; auto.
  - exists MemBvp; auto.
  - exists PadeAdd; auto.
  - exists Single; auto.
  - exists SixStream; auto.
  - exists Sos; auto.
  - exists TwoOs; auto.
  - exists TwoStream; auto.
Qed.

Lemma onb_false o x : ~ on o x <-> N.testbit o (opt_index x) = false.
Proof. unfold on. destruct (N.testbit o (opt_index x)); intuition congruence. Qed.

Lemma check_solvers_exact o s nq nth nl nt :
  check_solvers o s nq nth nl nt = RET_OK <->
  (forall x, wants s x -> compatible o nq nth nl nt x).
Proof.
  rewrite check_solvers_excl. to_bits. split.
  - intros (H1&H2&H3&H4&H5&H6&H7&H8&H9&H10&H11&H12&H13&H14&H15&H16&H17) x Hx.
    assert (E11 : N.testbit o 17 = false)
      by (eapply excl_use; [exact H11|exact Hx|destruct x; cbn; tauto]).
    assert (E4 : x <> DoubAdd -> nth = 1%Z).
    { intro Hne. assert (E : negb (nth =? 1)%Z = false)
        by (eapply excl_use; [exact H4|exact Hx|destruct x; cbn; tauto]). lia. }
    split; [apply onb_false; exact E11|]. split; [exact E4|].
    destruct x; unfold both_ways_or_bvp; rewrite ?onb_false; cbn [opt_index];
      repeat match goal with
        | H : excl ?c s ?ks |- _ =>
            first [ let E := fresh "E" in
                    assert (E : c = false) by (eapply excl_use; [exact H|exact Hx|cbn; tauto]);
                    clear H
                  | clear H ]
        end;
      repeat match goal with |- _ /\ _ => split end; auto; try lia;
      unfold on; cbn [opt_index]; try intro;
      try (apply negb_false_iff; assumption); try lia;
      repeat match goal with E : _ && _ = false |- _ => apply andb_false_iff in E; destruct E as [E|E] end;
      try (apply negb_false_iff; assumption); try lia; try congruence.
  - intro H.
    repeat match goal with |- _ /\ _ => split end; apply excl_intro;
      try (intros k Hk; apply idx_all; cbn in Hk;
           repeat match goal with H : _ \/ _ |- _ => destruct H as [H|H] end; lia);
      intros x Hin Hx; specialize (H x Hx); unfold compatible, both_ways_or_bvp in H;
      destruct H as (HL & HT & HM);
      apply onb_false in HL; cbn [opt_index] in HL;
      destruct x; cbn in Hin;
      repeat match goal with H : _ \/ _ |- _ => destruct H as [H|H] end;
      try discriminate; try tauto;
      repeat match goal with H : _ /\ _ |- _ => destruct H end;
      rewrite ?onb_false in *; cbn [opt_index] in *; auto;
      try (apply negb_false_iff; apply Z.eqb_eq; auto; apply HT; discriminate);
      try (unfold on in *; cbn [opt_index] in *;
           repeat match goal with |- context [N.testbit o ?k] => destruct (N.testbit o k) eqn:? end;
           cbn; try congruence; try lia; intuition congruence);
      try lia.
Qed.

Lemma check_solvers_mono o s s' nq nth nl nt :
  (forall x, wants s' x -> wants s x) ->
  check_solvers o s nq nth nl nt = RET_OK ->
  check_solvers o s' nq nth nl nt = RET_OK.
Proof. rewrite !check_solvers_exact. auto. Qed.

(* ---------------------------------------------------------------- implicit options *)

Lemma if_lor_bit (c : bool) o m k :
  N.testbit (if c then N.lor o m else o) k = N.testbit o k || (c && N.testbit m k).
Proof. destruct c; cbn; [apply N.lor_spec|now rewrite orb_false_r]. Qed.

Lemma bit_testbit j k : N.testbit (bit j) k = (j =? k).
Proof.
  unfold bit. rewrite N.shiftl_1_l. destruct (N.eqb_spec j k) as [->|H].
  - apply N.pow2_bits_true.
  - now apply N.pow2_bits_false.
Qed.

Lemma if_lor2_bit (c d : bool) o m m' k :
  N.testbit (if c then (if d then N.lor o m else N.lor o m') else o) k =
  N.testbit o k || (c && (if d then N.testbit m k else N.testbit m' k)).
Proof. destruct c, d; cbn; rewrite ?N.lor_spec, ?orb_false_r; reflexivity. Qed.

(** The bits of the completed mask, bit by bit. *)
Definition impl_bit (o : N) (n : Z) (k : N) : bool :=
  let t := N.testbit o in
  t k
  || ((n >? 1)%Z && (31 =? k))
  || (t 3 && (2 =? k))
  || (negb (t 4 || t 5) && (5 =? k))
  || (negb (t 9 || t 10) && (9 =? k))
  || (negb (t 11 || (t 12 || t 13)) &&
      (if negb (t 31 || (n >? 1)%Z) then (11 =? k) else (12 =? k)))
  || (negb (t 15 || (t 16 || t 17)) && (16 =? k))
  || (negb (t 29 || t 30) && ((29 =? k) || (30 =? k))).

(** The seven steps as functions, to keep the terms small. *)
Definition st1 (n : Z) (o : N) := if (n >? 1)%Z then N.lor o OPT_VECTOR else o.
Definition st2 o := if tst o OPT_N_T_TMS then N.lor o OPT_DELTA_M else o.
Definition st3 o := if negb (tst o (N.lor OPT_FOUR_CONV_OLD OPT_FOUR_CONV_NEW))
  then N.lor o OPT_FOUR_CONV_NEW else o.
Definition st4 o := if negb (tst o (N.lor OPT_PART_SOL_CLASSICAL OPT_PART_SOL_GREENS))
  then N.lor o OPT_PART_SOL_CLASSICAL else o.
Definition st5 o :=
  if negb (tst o (N.lor OPT_PHASE_SCALAR (N.lor OPT_PHASE_MATRIX_GC OPT_PHASE_MATRIX_LC)))
  then (if negb (tst o OPT_VECTOR) then N.lor o OPT_PHASE_SCALAR else N.lor o OPT_PHASE_MATRIX_GC)
  else o.
Definition st6 o :=
  if negb (tst o (N.lor OPT_QUAD_NORM_GAUS_LEG (N.lor OPT_QUAD_DOUB_GAUS_LEG OPT_QUAD_LOBATTO)))
  then N.lor o OPT_QUAD_DOUB_GAUS_LEG else o.
Definition st7 o := if negb (tst o (N.lor OPT_UPWELLING_OUTPUT OPT_DOWNWELLING_OUTPUT))
  then N.lor o (N.lor OPT_UPWELLING_OUTPUT OPT_DOWNWELLING_OUTPUT) else o.

Lemma implicit_steps o n : implicit_options o n = st7 (st6 (st5 (st4 (st3 (st2 (st1 n o)))))).
Proof. reflexivity. Qed.

Ltac stb := to_bits; rewrite ?if_lor_bit, ?if_lor2_bit, ?N.lor_spec, ?bit_testbit; reflexivity.
Lemma st1_b n o k : N.testbit (st1 n o) k = N.testbit o k || ((n >? 1)%Z && (31 =? k)).
Proof. unfold st1. stb. Qed.
Lemma st2_b o k : N.testbit (st2 o) k = N.testbit o k || (N.testbit o 3 && (2 =? k)).
Proof. unfold st2. stb. Qed.
Lemma st3_b o k : N.testbit (st3 o) k =
  N.testbit o k || (negb (N.testbit o 4 || N.testbit o 5) && (5 =? k)).
Proof. unfold st3. stb. Qed.
Lemma st4_b o k : N.testbit (st4 o) k =
  N.testbit o k || (negb (N.testbit o 9 || N.testbit o 10) && (9 =? k)).
Proof. unfold st4. stb. Qed.
Lemma st5_b o k : N.testbit (st5 o) k =
  N.testbit o k || (negb (N.testbit o 11 || (N.testbit o 12 || N.testbit o 13)) &&
    (if negb (N.testbit o 31) then 11 =? k else 12 =? k)).
Proof. unfold st5. stb. Qed.
Lemma st6_b o k : N.testbit (st6 o) k =
  N.testbit o k || (negb (N.testbit o 15 || (N.testbit o 16 || N.testbit o 17)) && (16 =? k)).
Proof. unfold st6. stb. Qed.
Lemma st7_b o k : N.testbit (st7 o) k =
  N.testbit o k || (negb (N.testbit o 29 || N.testbit o 30) && ((29 =? k) || (30 =? k))).
Proof. unfold st7. stb. Qed.

Ltac small := cbn [N.eqb Pos.eqb]; rewrite ?andb_false_r, ?orb_false_r, ?andb_true_r;
  repeat match goal with |- context [(if ?b then false else false)] =>
    replace (if b then false else false) with false by (destruct b; reflexivity) end;
  rewrite ?andb_false_r, ?orb_false_r, ?andb_true_r.

Lemma implicit_bits o n k : N.testbit (implicit_options o n) k = impl_bit o n k.
Proof.
  rewrite implicit_steps.
  rewrite st7_b, !st6_b; small. rewrite !st5_b; small. rewrite !st4_b; small.
  rewrite !st3_b; small. rewrite !st2_b; small. rewrite !st1_b; small.
  unfold impl_bit. cbv zeta. reflexivity.
Qed.

Lemma implicit_exact o n x :
  on (implicit_options o n) x <-> on o x \/ default_rule o n x.
Proof.
  unfold on at 1. rewrite implicit_bits. unfold impl_bit.
  destruct x; unfold default_rule; rewrite ?some_of_2, ?some_of_3; unfold on, onb;
    cbn [opt_index N.eqb Pos.eqb];
    rewrite ?andb_false_r, ?orb_false_r, ?andb_true_r;
    repeat match goal with |- context [(if ?b then false else false)] =>
      replace (if b then false else false) with false by (destruct b; reflexivity) end;
    rewrite ?andb_false_r, ?orb_false_r, ?andb_true_r;
    try tauto;
    rewrite <- ?Z.gtb_lt;
    try (assert (Hn : (n <= 1)%Z <-> (n >? 1)%Z = false) by (rewrite Z.gtb_ltb, Z.ltb_ge; tauto);
         rewrite Hn; clear Hn);
    repeat match goal with |- context [N.testbit o ?k] => destruct (N.testbit o k) end;
    destruct (n >? 1)%Z; cbn; intuition congruence.
Qed.

Lemma implicit_high o n k : 32 <= k -> N.testbit (implicit_options o n) k = N.testbit o k.
Proof.
  intro H. rewrite implicit_bits. unfold impl_bit.
  repeat match goal with |- context [?a =? k] =>
    replace (a =? k) with false by (symmetry; apply N.eqb_neq; lia) end.
  rewrite ?andb_false_r, ?orb_false_r.
  replace (if negb (N.testbit o 31 || (n >? 1)%Z) then false else false) with false
    by (destruct (negb _); reflexivity).
  now rewrite ?andb_false_r, ?orb_false_r.
Qed.

Lemma opt_all k : k < 32 -> exists x, opt_index x = k.
Proof.
  intro H.
  set (l := [CalcDerivs; ReverseDerivs; DeltaM; NTTms; FourConvOld; FourConvNew; NoAzimuthal;
    OutputAtLevels; OutputAtTaus; PartSolClassical; PartSolGreens; PhaseScalar; PhaseMatrixGc;
    PhaseMatrixLc; Psa; QuadNorm; QuadDoub; QuadLobatto; SaveLegPolys; SavePhaseMats;
    SaveLocalRT; SaveLayerRTS; SaveTotalRTS; Sfi; SourceSolar; SourceThermal; StackReuse;
    TopDown; BottomUp; Upwelling; Downwelling; Vector]).
  exists (nth (N.to_nat k) l CalcDerivs).
  assert (Hall : forallb (fun j => opt_index (nth (N.to_nat j) l CalcDerivs) =? j)
                   (map N.of_nat (seq 0 32)) = true) by (vm_compute; reflexivity).
  rewrite forallb_forall in Hall. apply N.eqb_eq. apply Hall.
  apply in_map_iff. exists (N.to_nat k). split; [apply N2Nat.id|].
  apply in_seq. lia.
Qed.

Lemma mask_ext o o' :
  (forall x, on o x <-> on o' x) -> (forall k, 32 <= k -> N.testbit o k = N.testbit o' k) -> o = o'.
Proof.
  intros H Hh. apply N.bits_inj. intro k.
  destruct (N.lt_ge_cases k 32) as [Hk|Hk]; [|auto].
  destruct (opt_all k Hk) as [x <-]. specialize (H x). unfold on in H.
  destruct (N.testbit o (opt_index x)), (N.testbit o' (opt_index x)); intuition congruence.
Qed.

Lemma implicit_fix o n x : default_rule (implicit_options o n) n x -> on (implicit_options o n) x.
Proof.
  destruct x; cbn [default_rule]; try tauto; rewrite ?some_of_2, ?some_of_3;
    rewrite ?on_iff; unfold onb; rewrite ?implicit_bits; unfold impl_bit; cbv zeta;
    cbn [opt_index]; small; rewrite <- ?Z.gtb_lt;
    repeat match goal with |- context [N.testbit o ?k] => destruct (N.testbit o k) end;
    destruct (n >? 1)%Z; cbn; intuition congruence.
Qed.

Lemma implicit_idem o n : implicit_options (implicit_options o n) n = implicit_options o n.
Proof.
  apply mask_ext.
  - intro x. rewrite implicit_exact. split; [|auto]. intros [H|H]; auto. now apply implicit_fix.
  - intros k Hk. now rewrite !implicit_high.
Qed.

Lemma implicit_completes o n : completes o n (implicit_options o n).
Proof. split; [apply implicit_exact|apply implicit_high]. Qed.

Lemma completes_unique o n o1 o2 : completes o n o1 -> completes o n o2 -> o1 = o2.
Proof.
  intros [H1 H2] [H3 H4]. apply mask_ext.
  - intro x. now rewrite H1, H3.
  - intros k Hk. now rewrite H2, H4.
Qed.

(* ---------------------------------------------------------------- creation *)

(** Arguments in range (documentation of xrtm_create). *)
Record args_in_range (a : create_args) : Prop := {
  ar_coef : (0 <= a_max_coef a)%Z;
  ar_quad : (1 <= a_n_quad a)%Z;
  ar_stokes : (1 <= a_n_stokes a <= 4)%Z;
  ar_derivs : (0 <= a_n_derivs a)%Z;
  ar_layers : (1 <= a_n_layers a)%Z;
  ar_theta0 : (1 <= a_n_theta_0s a)%Z;
  ar_kernels : (0 <= a_n_kernels a)%Z;
  ar_kquad : (0 < a_n_kernels a)%Z -> (1 <= a_n_kernel_quad a)%Z;
  ar_ktypes : forall i k, (Z.of_nat i < a_n_kernels a)%Z -> nth_error (a_kernels a) i = Some k ->
              (0 <= k <= 10)%Z;
  ar_levels : (1 <= a_n_out_levels a)%Z;
  ar_thetas : (0 <= a_n_out_thetas a)%Z }.

Definition valid_args (a : create_args) : Prop :=
  args_in_range a /\
  exists o, completes (a_options a) (a_n_stokes a) o /\
    valid_options o /\
    valid_counts o (a_max_coef a) (a_n_quad a) (a_n_stokes a) (a_n_derivs a)
      (a_n_out_levels a) (a_n_out_thetas a) /\
    (forall x, wants (a_solvers a) x ->
       compatible o (a_n_quad a) (a_n_theta_0s a) (a_n_out_levels a) (a_n_out_thetas a) x).

(** The caller passes an array with at least [n_kernels] entries. *)
Definition kernels_long_enough (a : create_args) : Prop :=
  (a_n_kernels a <= Z.of_nat (length (a_kernels a)))%Z.

Lemma kernel_valid_iff k : kernel_is_valid k = true <-> (0 <= k <= 10)%Z.
Proof. unfold kernel_is_valid. rewrite negb_true_iff, orb_false_iff. lia. Qed.

Lemma kernels_ok_spec ks n : (n <= length ks)%nat ->
  exists b, kernels_ok ks n = Ok b /\
   (b = true <-> forall i k, (i < n)%nat -> nth_error ks i = Some k -> (0 <= k <= 10)%Z).
Proof.
  revert n. induction ks as [|k ks IH]; intros n Hn; cbn in Hn.
  - assert (n = 0%nat) as -> by lia. exists true. split; [reflexivity|]. split; [intros; lia|auto].
  - destruct n as [|n]; cbn [kernels_ok].
    + exists true. split; [reflexivity|]. split; [intros; lia|auto].
    + destruct (kernel_is_valid k) eqn:E.
      * destruct (IH n ltac:(lia)) as (b & Hb & Hs). exists b. split; auto. rewrite Hs.
        split.
        -- intros H [|i] k' Hi Hk; cbn in Hk; [injection Hk as <-; now apply kernel_valid_iff|].
           apply (H i k'); auto; lia.
        -- intros H i k' Hi Hk. apply (H (S i) k'); cbn; auto; lia.
      * exists false. split; auto. split; [discriminate|]. intro H.
        specialize (H 0%nat k ltac:(lia) eq_refl). apply kernel_valid_iff in H. congruence.
Qed.

Lemma code_neg z : negb (z =? 0)%Z = false <-> z = RET_OK.
Proof. rewrite negb_false_iff, Z.eqb_eq. reflexivity. Qed.

Lemma create_ok_iff a c : kernels_long_enough a ->
  (create_config a = Ok c <->
   valid_args a /\ c = create_dims a (implicit_options (a_options a) (a_n_stokes a))).
Proof.
  intro HL. unfold create_config.
  destruct (kernels_ok_spec (a_kernels a) (Z.to_nat (a_n_kernels a))) as (b & Hb & Hbs).
  { unfold kernels_long_enough in HL. lia. }
  rewrite Hb.
  set (o := implicit_options (a_options a) (a_n_stokes a)).
  assert (Hco : completes (a_options a) (a_n_stokes a) o) by apply implicit_completes.
  split.
  - repeat match goal with
      | |- (if ?b then Err _ else _) = Ok _ -> _ => destruct b eqn:?; [discriminate|]
      end.
    destruct b; [|discriminate].
    repeat match goal with
      | |- (if ?b then Err _ else _) = Ok _ -> _ => destruct b eqn:?; [discriminate|]
      end.
    intro H. injection H as <-.
    split; [|reflexivity].
    repeat match goal with H : negb (_ =? 0)%Z = false |- _ => rewrite code_neg in H end.
    split.
    + constructor; try lia. intros i k Hi Hk. apply (proj1 Hbs eq_refl i k); auto. lia.
    + exists o. split; auto. split; [now apply check_options_exact|].
      split; [now apply check_counts_exact|]. now apply check_solvers_exact with (s := a_solvers a).
  - intros [[Hr (o' & Hc' & Hvo & Hvc & Hvs)] ->].
    rewrite (completes_unique _ _ _ _ Hc' Hco) in *.
    destruct Hr as [R1 R2 R3 R4 R5 R6 R7 R8 R9 R10 R11].
    assert (b = true) as ->.
    { apply Hbs. intros i k Hi Hk. apply (R9 i k); auto. lia. }
    apply check_options_exact in Hvo. apply check_counts_exact in Hvc.
    apply check_solvers_exact in Hvs.
    rewrite Hvo, Hvc, Hvs.
    repeat match goal with
      | |- (if ?b then _ else _) = _ =>
          replace b with false by
            (symmetry; rewrite ?orb_false_iff, ?andb_false_iff; unfold RET_OK; cbn; try lia;
             destruct (Z.leb_spec (a_n_kernel_quad a) 0); lia)
      end.
    reflexivity.
Qed.

Lemma create_outcomes a : kernels_long_enough a ->
  (exists c, create_config a = Ok c) \/ create_config a = Err RET_ERR.
Proof.
  intro HL. unfold create_config.
  destruct (kernels_ok_spec (a_kernels a) (Z.to_nat (a_n_kernels a))) as (b & -> & _).
  { unfold kernels_long_enough in HL. lia. }
  repeat match goal with
      | |- context [if ?b then Err _ else _] => destruct b eqn:?; [right; reflexivity|]
      end.
  destruct b; [|right; reflexivity].
  repeat match goal with
      | |- context [if ?b then Err _ else _] => destruct b eqn:?; [right; reflexivity|]
      end.
  left. eauto.
Qed.

(** Only SavePhaseMats may be added after completion. *)
Lemma create_dims_options a o x :
  on (c_options (create_dims a o)) x <-> on o x \/ (x = SavePhaseMats /\ on o PhaseMatrixLc).
Proof.
  unfold create_dims.
  assert (E : forall p : Z * Z, c_options (let '(n_four, n_coef2) := p in
    {| c_options := if tst o OPT_PHASE_MATRIX_LC then N.lor o OPT_SAVE_PHASE_MATS else o;
       c_solvers := a_solvers a; c_n_coef := a_max_coef a; c_n_coef2 := n_coef2;
       c_n_four := if tst o OPT_NO_AZIMUTHAL then 1%Z else n_four;
       c_n_four2 := update_n_four2 (if tst o OPT_PHASE_MATRIX_LC then N.lor o OPT_SAVE_PHASE_MATS else o)
          (a_n_stokes a) (if tst o OPT_NO_AZIMUTHAL then 1%Z else n_four) false false;
       c_n_elem := if (a_n_stokes a =? 1)%Z then 1%Z else 6%Z;
       c_n_quad := a_n_quad a; c_n_stokes := a_n_stokes a;
       c_n_derivs := if negb (tst o OPT_CALC_DERIVS) then 0%Z else a_n_derivs a;
       c_n_layers := a_n_layers a; c_n_theta_0s := a_n_theta_0s a;
       c_n_kernels := a_n_kernels a; c_n_kernel_quad := a_n_kernel_quad a;
       c_kernels := firstn (Z.to_nat (a_n_kernels a)) (a_kernels a);
       c_n_ulevels := a_n_out_levels a; c_n_umus := a_n_out_thetas a;
       c_n_out_thetas_2 := if (a_n_out_thetas a =? 0)%Z then a_n_quad a else a_n_out_thetas a |})
    = if tst o OPT_PHASE_MATRIX_LC then N.lor o OPT_SAVE_PHASE_MATS else o)
    by (intros [? ?]; reflexivity).
  cbv zeta. rewrite E. unfold on. to_bits. rewrite if_lor_bit, bit_testbit.
  cbn [opt_index]. rewrite orb_true_iff, andb_true_iff, N.eqb_eq.
  split; intros [H|[H1 H2]]; auto.
  - right. split; auto. destruct x; cbn in H2; try discriminate; reflexivity.
  - right. subst x. auto.
Qed.

Lemma valid_options_ext o o' :
  (forall x, x <> SavePhaseMats -> (on o x <-> on o' x)) -> valid_options o -> valid_options o'.
Proof.
  intros H [Hc Ho Hp Hph Hq Hd Hv Ht Hss Hsd Hst Htb].
  assert (E1 : forall g, ~ In SavePhaseMats g -> exactly_one o g -> exactly_one o' g).
  { intros g Hg (x & Hi & Hx & Hu). exists x. split; auto.
    split; [apply H; auto; congruence|]. intros y Hy Hy'. apply Hu; auto. apply H; auto. congruence. }
  assert (E2 : forall g, ~ In SavePhaseMats g -> (some_of o g <-> some_of o' g)).
  { intros g Hg. split; intros (x & Hi & Hx); exists x; split; auto; apply H; auto; congruence. }
  constructor.
  - apply E1; auto; cbn; intuition discriminate.
  - apply E1; auto; cbn; intuition discriminate.
  - apply E1; auto; cbn; intuition discriminate.
  - apply E1; auto; cbn; intuition discriminate.
  - apply E1; auto; cbn; intuition discriminate.
  - apply E2; auto; cbn; intuition discriminate.
  - rewrite <- (E2 [PhaseMatrixGc; PhaseMatrixLc]) by (cbn; intuition discriminate).
    rewrite <- H by discriminate. exact Hv.
  - unfold not_both in *. rewrite <- !H by discriminate. auto.
  - unfold not_both in *. rewrite <- !H by discriminate. auto.
  - rewrite <- !H by discriminate. auto.
  - unfold not_both in *. rewrite <- !H by discriminate. auto.
  - unfold not_both in *. rewrite <- !H by discriminate. auto.
Qed.

Lemma create_stored_valid a c : kernels_long_enough a -> create_config a = Ok c ->
  check_options (c_options c) = RET_OK /\
  (forall x, on (c_options c) x <->
     on (a_options a) x \/ default_rule (a_options a) (a_n_stokes a) x \/
     (x = SavePhaseMats /\ on (a_options a) PhaseMatrixLc)).
Proof.
  intros HL H. apply create_ok_iff in H; auto. destruct H as [[_ (o & Hc & Hv & _)] ->].
  rewrite (completes_unique _ _ _ _ (implicit_completes _ _) Hc). split.
  - apply check_options_exact. eapply valid_options_ext; [|exact Hv].
    intros x Hx. rewrite create_dims_options. intuition.
  - intro x. rewrite create_dims_options. destruct Hc as [Hc _]. rewrite !Hc.
    cbn [default_rule]. tauto.
Qed.

(** Dimensions. *)
Lemma create_dims_bounds a c : kernels_long_enough a -> create_config a = Ok c ->
  let one_four := on (a_options a) NoAzimuthal in
  let thermal_only := ~ on (a_options a) SourceSolar /\ on (a_options a) SourceThermal in
  (c_n_coef2 c = Z.min (a_max_coef a) (2 * a_n_quad a))%Z /\
  (one_four -> c_n_four c = 1)%Z /\
  (~ one_four -> c_n_four c = Z.max 1 (Z.min (a_max_coef a) (2 * a_n_quad a)))%Z /\
  (one_four \/ thermal_only -> c_n_four2 c = 1)%Z /\
  (~ one_four -> ~ thermal_only -> c_n_four2 c = c_n_four c) /\
  (on (a_options a) CalcDerivs -> c_n_derivs c = a_n_derivs a /\ 1 <= c_n_derivs c)%Z /\
  (~ on (a_options a) CalcDerivs -> c_n_derivs c = 0)%Z /\
  (c_n_out_thetas_2 c = if (a_n_out_thetas a =? 0)%Z then a_n_quad a else a_n_out_thetas a) /\
  (Z.of_nat (length (c_kernels c)) = a_n_kernels a)%Z.
Proof.
  intros HL H. apply create_ok_iff in H; auto. destruct H as [[Hr (o & Hc & Hv & Hn & _)] ->].
  rewrite (completes_unique _ _ _ _ (implicit_completes _ _) Hc).
  destruct Hr as [R1 R2 R3 R4 R5 R6 R7 R8 R9 R10 R11].
  destruct Hc as [Hc _].
  assert (C6 : on o NoAzimuthal <-> on (a_options a) NoAzimuthal) by (rewrite Hc; cbn; tauto).
  assert (C24 : on o SourceSolar <-> on (a_options a) SourceSolar) by (rewrite Hc; cbn; tauto).
  assert (C25 : on o SourceThermal <-> on (a_options a) SourceThermal) by (rewrite Hc; cbn; tauto).
  assert (C0 : on o CalcDerivs <-> on (a_options a) CalcDerivs) by (rewrite Hc; cbn; tauto).
  pose proof (vc_derivs _ _ _ _ _ _ _ Hn) as Hnd.
  cbv zeta. rewrite <- C6, <- C24, <- C25, <- C0. clear C6 C24 C25 C0 Hc.
  unfold create_dims, update_n_four2. to_bits.
  set (o' := if N.testbit o 13 then N.lor o (bit 19) else o).
  assert (B : forall k, k <> 19 -> N.testbit o' k = N.testbit o k).
  { intros k Hk. unfold o'. rewrite if_lor_bit, bit_testbit.
    replace (19 =? k) with false by (symmetry; apply N.eqb_neq; congruence).
    now rewrite andb_false_r, orb_false_r. }
  rewrite !B by discriminate. clearbody o'.
  unfold on in *. cbn [opt_index] in *.
  assert (LK : Z.of_nat (length (firstn (Z.to_nat (a_n_kernels a)) (a_kernels a))) = a_n_kernels a).
  { unfold kernels_long_enough in HL. rewrite firstn_length. lia. }
  destruct (a_max_coef a =? 0)%Z eqn:E0; [|destruct (a_max_coef a <=? 2 * a_n_quad a)%Z eqn:E1];
    cbn [c_n_coef2 c_n_four c_n_four2 c_n_derivs c_n_out_thetas_2 c_kernels orb andb];
    rewrite andb_false_r, orb_false_r;
    destruct (N.testbit o 6), (N.testbit o 24), (N.testbit o 25), (N.testbit o 0); cbn [orb andb negb];
    repeat match goal with |- _ /\ _ => split end; intros; auto; try lia; try congruence;
    try (split; [reflexivity|]; specialize (Hnd eq_refl); lia); intuition (try congruence; try lia).
Qed.

Lemma compatible_ext o o' nq nth nl nt x :
  (forall y, y <> SavePhaseMats -> (on o y <-> on o' y)) ->
  compatible o nq nth nl nt x -> compatible o' nq nth nl nt x.
Proof.
  intros H. unfold compatible, both_ways_or_bvp.
  destruct x; rewrite <- ?H by discriminate; auto.
Qed.

Lemma created_solvers_compatible a c x :
  kernels_long_enough a -> create_config a = Ok c -> wants (c_solvers c) x ->
  compatible (c_options c) (c_n_quad c) (c_n_theta_0s c) (c_n_ulevels c) (c_n_umus c) x.
Proof.
  intros HL H Hw. apply create_ok_iff in H; auto. destruct H as [[Hr (o & Hc & Hv & Hn & Hs)] ->].
  rewrite (completes_unique _ _ _ _ (implicit_completes _ _) Hc) in *.
  assert (E : c_solvers (create_dims a o) = a_solvers a /\ c_n_quad (create_dims a o) = a_n_quad a /\
    c_n_theta_0s (create_dims a o) = a_n_theta_0s a /\ c_n_ulevels (create_dims a o) = a_n_out_levels a /\
    c_n_umus (create_dims a o) = a_n_out_thetas a).
  { unfold create_dims. destruct (a_max_coef a =? 0)%Z; [|destruct (a_max_coef a <=? 2 * a_n_quad a)%Z];
      repeat split. }
  destruct E as (E1&E2&E3&E4&E5). rewrite E1 in Hw. rewrite E2, E3, E4, E5.
  eapply compatible_ext; [|apply Hs; exact Hw].
  intros y Hy. rewrite create_dims_options. intuition.
Qed.

Lemma create_exact a : kernels_long_enough a ->
  ((exists c, create_config a = Ok c) <-> valid_args a) /\
  (~ valid_args a -> create_config a = Err RET_ERR).
Proof.
  intro HL. split.
  - split.
    + intros [c H]. apply create_ok_iff in H; tauto.
    + intro H. eexists. apply create_ok_iff; auto.
  - intro Hn. destruct (create_outcomes a HL) as [[c H]|H]; auto.
    exfalso. apply Hn. apply create_ok_iff in H; tauto.
Qed.
