(** C46: the derivatives of the operators of a layer found with the eigenvalue solver are exact. *)
From Coq Require Import Reals Bool Arith Lia Lra.
From Verif Require Import Base DeltaMSpec DeltaMProofs AddingModel AddingSpec AddingMat AddingDeriv AddingCalls RadianceModel SingleProofs
  EigModel EigSpec EigMat EigCore EigProofs EigEnergy EigLayer EigProperties EigDModel EigDSpec EigDProofs EigPath EigDLayer.
Open Scope R_scope.

(** What is required of a scattering layer and its variation: near the point a scattering medium; at the point separable, the beam not in resonance,
    and, when the layer itself varies, distinct eigenvalues and no decoupled direction with weight. *)
Definition layer_moves (n : nat) (solar thermal dl : bool) (X : R -> slab) (p : R) : Prop :=
  let x := X p in let c := factor x 1 * omega x in
  around p (fun s => scatters n (qx (X s)) (qw (X s)) (factor (X s) 1 * omega (X s)) (P_pp (X s)) (P_mp (X s)) /\ 0 <= ltau (X s)) /\
  separable n (qx x) (qw x) c (P_pp x) (P_mp x) /\
  (dl = true -> simple_spectrum n (qx x) (qw x) c (P_pp x) (P_mp x) /\ coupled n (qx x) (qw x) c (P_pp x) (P_mp x)) /\
  (solar = true -> as_0 x <> 0 /\ nonresonant n (qx x) (qw x) c (P_pp x) (P_mp x) (as_0 x) /\ around p (fun s => atran (X s) = exp (- as_0 (X s) * ltau (X s)))) /\
  (thermal = true -> ltau x <> 0).
(** The flags: when the layer varies so do the beam that passes through it and its emission; what varies is a source that varies. *)
Definition flags_ok (solar thermal dl db dt ds : bool) : Prop :=
  (dl = true -> solar = true -> db = true) /\ (dl = true -> thermal = true -> dt = true) /\ (solar && db || thermal && dt = true -> ds = true).

Lemma scale_d : forall n solar thermal db dt ds (b : R -> R) b' (S L : R -> vec) p S' L' old, (solar && db || thermal && dt = true -> ds = true) ->
  (if db then derivable_pt_lim b p b' else forall s, b s = b p) ->
  (solar = true -> vderiv n S p (if db then S' else zvec)) -> (thermal = true -> vderiv n L p (if dt then L' else zvec)) ->
  vderiv n (fun s => scale_add solar thermal (b s) (S s) (L s)) p (if ds then scale_add_l solar thermal db dt ds (b p) b' (S p) S' L' old else zvec).
Proof.
  intros n solar thermal db dt ds b b' S L p S' L' old F Hb HS HL i Hi.
  assert (solar = true -> derivable_pt_lim (fun s => b s * S s i) p (if db then b' * S p i + b p * S' i else 0)) as A.
  { intros Q. specialize (HS Q i Hi). destruct db.
    - apply (dl_mult b (fun s => S s i) p _ _ Hb HS).
    - apply (eq_around (fun s => b p * S s i)); [apply around_true; intros s; rewrite (Hb s); reflexivity|].
      eapply dl_eq; [apply dl_scal; exact HS|]. unfold zvec. ring. }
  assert (thermal = true -> derivable_pt_lim (fun s => L s i) p (if dt then L' i else 0)) as B.
  { intros Q. specialize (HL Q i Hi). destruct dt; exact HL. }
  unfold scale_add, scale_add_l.
  destruct solar, thermal; cbn [andb orb] in *.
  - specialize (A eq_refl). specialize (B eq_refl). eapply dl_eq; [apply (dl_plus (fun s => b s * S s i) (fun s => L s i) p _ _ A B)|].
    destruct db, dt; cbn [orb] in F; try rewrite (F eq_refl); destruct ds; unfold vadd, vscale, zvec; ring.
  - specialize (A eq_refl). eapply dl_eq; [exact A|]. destruct db; cbn [orb] in F; try rewrite (F eq_refl); destruct ds; unfold vadd, vscale, zvec; ring.
  - specialize (B eq_refl). eapply dl_eq; [apply dl_plus; [apply (dl_const 0)|exact B]|]. destruct dt; cbn [orb] in F; try rewrite (F eq_refl); destruct ds; unfold vadd, vscale, zvec; ring.
  - eapply dl_eq; [apply (dl_const 0)|]. destruct ds; reflexivity.
Qed.
Lemma done_around : forall n (F L : R -> layer) p l, around p (fun s => F s = L s) -> lderiv n F p l -> lderiv n L p l.
Proof.
  intros n F L p l A (D1 & D2 & D3 & D4 & D5 & D6).
  refine (conj _ (conj _ (conj _ (conj _ (conj _ _)))));
    [eapply md_around; [|exact D1]|eapply md_around; [|exact D2]|eapply vd_around; [|exact D3]|eapply md_around; [|exact D4]|eapply md_around; [|exact D5]|eapply vd_around; [|exact D6]];
    refine (around_imp p _ _ _ A); intros s ->; intros i; reflexivity.
Qed.
Lemma dull_d : forall n solar dl db dt ds X p dx old l', (forall i, (i < n)%nat -> qx (X p) i <> 0) -> varies n dl db dt X p dx -> flags_ok solar false dl db dt ds ->
  dull_layer_l solar false dl db dt ds (X p) dx old = Done l' ->
  lderiv n (fun s => {| Rm := zmat; Tm := dull_T (X s); Sm := scale_add solar false (btran (X s)) zvec zvec;
                        Rp := zmat; Tp := dull_T (X s); Sp := scale_add solar false (btran (X s)) zvec zvec |}) p (flagged dl ds l').
Proof.
  intros n solar dl db dt ds X p dx old l' Qx V (_ & _ & F3) H. unfold dull_layer_l in H. injection H as <-.
  assert (mderiv n (fun _ : R => zmat) p (if dl then zmat else zmat)) as DZ. { destruct dl; intros i j _ _; apply dl_const. }
  assert (mderiv n (fun s => dull_T (X s)) p (if dl then dull_T_l (X p) dx else zmat)) as DT.
  { intros i j Hi Hj. destruct V as (Fx & Vl & _). unfold dull_T, dull_T_l. destruct (Nat.eqb i j) eqn:E; [|destruct dl; unfold zmat; rewrite ?E; apply dl_const].
    apply (eq_around (fun s => exp (- ltau (X s) / qx (X p) i))).
    { apply around_true. intros s. destruct (Fx s) as (-> & _). reflexivity. }
    destruct dl.
    - destruct Vl as (_ & Dt & _). eapply dl_eq; [apply (dl_exp (fun s => - ltau (X s) / qx (X p) i)); apply (dl_mult (fun s => - ltau (X s)) (fun _ => / qx (X p) i)); [apply derivable_pt_lim_opp; exact Dt|apply dl_const]|].
      cbv beta. rewrite E. unfold dull_T. rewrite Nat.eqb_refl. unfold Rdiv. ring.
    - apply (eq_around (fun _ => exp (- ltau (X p) / qx (X p) i))); [|apply dl_const]. apply around_true. intros s. destruct (Vl s) as (_ & -> & _). reflexivity. }
  assert (forall o, vderiv n (fun s => scale_add solar false (btran (X s)) zvec zvec) p (if ds then scale_add_l solar false db dt ds (btran (X p)) (btran dx) zvec zvec zvec o else zvec)) as DS.
  { intros o. apply (scale_d n solar false db dt ds (fun s => btran (X s)) (btran dx) (fun _ => zvec) (fun _ => zvec)); [exact F3| | |discriminate].
    - destruct V as (_ & _ & Vb & _). destruct db; [apply Vb|]. intros s. apply Vb.
    - intros _ i _. destruct db; apply dl_const. }
  unfold lderiv, flagged. cbn [Rm Tm Sm Rp Tp Sp].
  assert (forall a b c : mat, (if dl then (if dl then a else b) else c) = if dl then a else c) as I by (intros; destruct dl; reflexivity). rewrite !I.
  exact (conj DZ (conj DT (conj (DS _) (conj DZ (conj DT (DS _)))))).
Qed.
(** The derivatives that the solver computes are those of the operators it computes, for every variation of its inputs that the flags announce. *)
Theorem C46_layer_gradient : forall n solve eig dull solar thermal dl db dt ds X p dx old L l', (0 < n)%nat ->
  solver n (solve n) -> (dl = true -> solver (S n) (solve (S n))) -> (thermal = true -> solver (n + n) (solve (n + n)%nat)) -> eigensolver n eig -> normalised n eig ->
  (forall i, (i < n)%nat -> qx (X p) i <> 0) -> varies n dl db dt X p dx -> flags_ok solar thermal dl db dt ds ->
  (dull = false -> omega (X p) <> 0 -> layer_moves n solar thermal dl X p) -> (dull = false -> dl = true -> omega (X p) <> 0) ->
  around p (fun s => layer_of n solve eig dull solar thermal (X s) = Done (L s)) ->
  layer_of_l n solve eig dull solar thermal dl db dt ds (X p) dx old = Done l' ->
  lderiv n L p (flagged dl ds l').
Proof.
  intros n solve eig dull solar thermal dl db dt ds X p dx old L l' Pos S1 SS S2 ES NM Qx V F Mv On HL H.
  destruct (dull || (if Req_EM_T (omega (X p)) 0 then true else false)) eqn:D.
  - (* nothing is scattered *)
    unfold layer_of_l in H. rewrite D in H. destruct thermal; [discriminate|].
    apply (done_around n (fun s => {| Rm := zmat; Tm := dull_T (X s); Sm := scale_add solar false (btran (X s)) zvec zvec;
                        Rp := zmat; Tp := dull_T (X s); Sp := scale_add solar false (btran (X s)) zvec zvec |})); [|apply (dull_d n solar dl db dt ds X p dx old l' Qx V F H)].
    refine (around_imp p _ _ _ HL). intros s Hs. unfold layer_of in Hs.
    assert (dull || (if Req_EM_T (omega (X s)) 0 then true else false) = true) as Ds.
    { destruct dull; [reflexivity|]. cbn [orb] in *. destruct (Req_EM_T (omega (X p)) 0) as [Z|]; [|discriminate].
      destruct dl; [elim (On eq_refl eq_refl Z)|]. destruct V as (_ & Vl & _). destruct (Vl s) as (E & _). rewrite E, Z. destruct (Req_EM_T 0 0); [reflexivity|contradiction]. }
    rewrite Ds in Hs. unfold dull_layer in Hs. injection Hs as <-. reflexivity.
  - unfold layer_of_l in H. rewrite D in H. injection H as <-. apply orb_false_iff in D. destruct D as (D1 & D2).
    assert (omega (X p) <> 0) as ON by (destruct (Req_EM_T (omega (X p)) 0); [discriminate|assumption]).
    destruct (Mv D1 ON) as (Nr & Sep & Smp & So & Th). destruct F as (F1 & F2 & F3).
    assert (forall d : dl = true, solver (S n) (solve (S n)) /\ simple_spectrum n (qx (X p)) (qw (X p)) (factor (X p) 1 * omega (X p)) (P_pp (X p)) (P_mp (X p)) /\
       coupled n (qx (X p)) (qw (X p)) (factor (X p) 1 * omega (X p)) (P_pp (X p)) (P_mp (X p))) as Si by (intros d; exact (conj (SS d) (Smp d))).
    apply (done_around n (fun s => eig_layer n solve eig solar thermal (X s))).
    { assert (around p (fun s => omega (X s) <> 0)) as Oa.
      { destruct V as (_ & Vl & _). destruct dl.
        - destruct Vl as (Do & _).
          assert (continuity_pt (fun s => omega (X s)) p) as C. { apply derivable_continuous_pt. exists (omega dx). exact Do. }
          destruct (C (Rabs (omega (X p))) (Rabs_pos_lt _ ON)) as (d & Dp & K). exists d. split; [exact Dp|]. intros s Hs Z.
          destruct (Req_dec s p) as [->|NE]; [contradiction|].
          assert (Rabs (omega (X s) - omega (X p)) < Rabs (omega (X p))) as Q. { apply (K s). split; [split; [exact I|auto]|exact Hs]. }
          rewrite Z, Rminus_0_l, Rabs_Ropp in Q. lra.
        - apply around_true. intros s. destruct (Vl s) as (-> & _). exact ON. }
      refine (around_imp p _ _ _ (around_and p _ _ HL Oa)). intros s (Hs & Os). unfold layer_of in Hs. rewrite D1 in Hs. cbn [orb] in Hs.
      destruct (Req_EM_T (omega (X s)) 0) as [Z|_]; [contradiction|]. injection Hs as ->. reflexivity. }
    destruct (d_RT n solve eig Pos S1 ES NM X p dx dl db dt V Nr Sep Si) as (DR & DT). unfold R', T' in DR, DT.
    assert (solar = true -> vderiv n (fun s => S_p n solve eig (X s)) p (if db then S_p_l n solve eig dl (X p) dx else zvec) /\
                            vderiv n (fun s => S_m n solve eig (X s)) p (if db then S_m_l n solve eig dl (X p) dx else zvec)) as DS.
    { intros Q. destruct (So Q) as (A & B & C). apply (d_solar n solve eig Pos S1 ES NM X p dx dl db dt V Nr Sep Si A B C). intros d. exact (F1 d Q). }
    assert (thermal = true -> vderiv n (fun s => Sl_p n solve eig (X s)) p (if dt then Sl_p_l n solve eig dl (X p) dx else zvec) /\
                            vderiv n (fun s => Sl_m n solve eig (X s)) p (if dt then Sl_m_l n solve eig dl (X p) dx else zvec)) as DL.
    { intros Q. apply (d_emits n solve eig Pos S1 ES NM X p dx dl db dt V Nr Sep Si (S2 Q) (Th Q)). intros d. exact (F2 d Q). }
    assert (if db then derivable_pt_lim (fun s => btran (X s)) p (btran dx) else forall s, btran (X s) = btran (X p)) as DB.
    { destruct V as (_ & _ & Vb & _). destruct db; [apply Vb|]. intros s. apply Vb. }
    unfold lderiv, flagged, eig_layer, eig_layer_l. cbn [Rm Tm Sm Rp Tp Sp].
    assert (forall a b c : mat, (if dl then (if dl then a else b) else c) = if dl then a else c) as I by (intros; destruct dl; reflexivity). rewrite !I.
    refine (conj DR (conj DT (conj _ (conj DR (conj DT _))))).
    + apply (scale_d n solar thermal db dt ds (fun s => btran (X s)) (btran dx) (fun s => S_m n solve eig (X s)) (fun s => Sl_m n solve eig (X s)) p _ _ (Sm old) F3 DB (fun q => proj2 (DS q)) (fun q => proj2 (DL q))).
    + apply (scale_d n solar thermal db dt ds (fun s => btran (X s)) (btran dx) (fun s => S_p n solve eig (X s)) (fun s => Sl_p n solve eig (X s)) p _ _ (Sp old) F3 DB (fun q => proj1 (DS q)) (fun q => proj1 (DL q))).
Qed.

(* ------------------------------------------------------------------------- *)
(** * A layer that meets the hypotheses: one stream, the beam and thermal emission, everything varies *)
Definition wave (s : R) : slab := {| qx := fun _ => 1; qw := fun _ => 1; zeroth := true; flux0 := 1; omega := 1 / 2 + s; ltau := 1 + s; as_0 := 1 + s;
  atran := exp (- (1 + s) * (1 + s)); btran := 1 + s; planck0 := 1 + s; planck1 := 2; P_pp := fun _ _ => 1; P_mp := fun _ _ => 1; Q_mm := fun _ => 1; Q_pm := fun _ => 1 |}.
Definition wave_l : slab := {| qx := zvec; qw := zvec; zeroth := true; flux0 := 0; omega := 1; ltau := 1; as_0 := 1; atran := - 2 * exp (- 1); btran := 1;
  planck0 := 1; planck1 := 0; P_pp := zmat; P_mp := zmat; Q_mm := zvec; Q_pm := zvec |}.
Lemma eig1_normalised : normalised 1 eig1.
Proof. intros m k _ Hk. assert (k = 0%nat) as -> by lia. unfold total, eig1, ident. cbn. ring. Qed.
Lemma eig1_system : forall m, eigensystem 1 m (eig1 m).
Proof.
  intros m. split.
  - exists ident. split; intros i j Hi Hj; assert (i = 0%nat) as -> by lia; assert (j = 0%nat) as -> by lia; unfold total, ident; cbn; ring.
  - intros i k Hi Hk. assert (i = 0%nat) as -> by lia. assert (k = 0%nat) as -> by lia. unfold total, ident. cbn. unfold ident. cbn. ring.
Qed.
Lemma simple_1 : forall mu w c Ps Po, simple_spectrum 1 mu w c Ps Po /\ coupled 1 mu w c Ps Po.
Proof.
  intros. split.
  - exists (eig1 (second_order 1 mu w c Ps Po)). split; [apply eig1_system|]. intros i j Hi Hj N. lia.
  - intros lam v i H. lia.
Qed.
Lemma plus_s : forall a p, derivable_pt_lim (fun s => a + s) p 1.
Proof. intros. eapply dl_eq; [apply dl_plus; [apply dl_const|apply dl_id]|]. ring. Qed.
Lemma wave_varies : varies 1 true true true wave 0 wave_l.
Proof.
  unfold varies. cbn [wave wave_l qx qw zeroth flux0 omega ltau as_0 atran btran planck0 planck1 P_pp P_mp Q_mm Q_pm].
  refine (conj _ (conj (conj _ (conj _ (conj _ (conj _ (conj _ _))))) (conj (conj _ (conj _ _)) (conj _ _)))).
  - intros s. repeat split.
  - apply plus_s.
  - apply plus_s.
  - intros i j _ _. apply dl_const.
  - intros i j _ _. apply dl_const.
  - intros i _. apply dl_const.
  - intros i _. apply dl_const.
  - apply plus_s.
  - eapply dl_eq; [apply dl_exp; apply (dl_mult (fun s => - (1 + s)) (fun s => 1 + s)); [apply (derivable_pt_lim_opp (fun s => 1 + s)); apply plus_s|apply plus_s]|].
    unfold opp_fct. replace (- (1 + 0) * (1 + 0)) with (- 1) by ring. ring.
  - apply plus_s.
  - apply plus_s.
  - apply dl_const.
Qed.
Lemma wave_moves : layer_moves 1 true true true wave 0.
Proof.
  unfold layer_moves. refine (conj _ (conj _ (conj _ (conj _ _)))).
  - exists (1/4). split; [lra|]. intros s Hs. rewrite Rminus_0_r in Hs. apply Rabs_def2 in Hs. split; [|cbn; lra]. refine (conj _ (conj _ _)).
    + intros i Hi. cbn. lra.
    + intros i j Hi Hj. cbn. split; reflexivity.
    + intros i Hi _. unfold total, factor. cbn. rewrite Rabs_R1, Rabs_right by lra. lra.
  - eexists. apply eig1_system.
  - intros _. apply simple_1.
  - intros _. cbn [as_0 wave]. refine (conj _ (conj _ _)); [lra| |apply around_true; intros s; cbn; f_equal; ring].
    intros a b H. destruct (H 1 0%nat 0 ltac:(lia) ltac:(lra)) as (A & B).
    assert (forall v : R, derivable_pt_lim (fun t => v * exp (- (1 + 0) * t)) 0 (- v)) as E.
    { intros v. eapply dl_eq; [apply dl_scal; apply dl_exp; apply dl_scal; apply dl_id|]. rewrite Rmult_0_r, exp_0. ring. }
    pose proof (uniqueness_limite _ _ _ _ A (E (a 0%nat))) as A'. pose proof (uniqueness_limite _ _ _ _ B (E (b 0%nat))) as B'.
    unfold scattered, total, factor in A', B'. cbn in A', B'. rewrite Rmult_0_r, exp_0 in A', B'.
    intros i Hi. assert (i = 0%nat) as -> by lia. split; lra.
  - intros _. cbn. lra.
Qed.
Example C46_one : forall old, exists L l', around 0 (fun s => layer_of 1 solves eig1 false true true (wave s) = Done (L s)) /\
  layer_of_l 1 solves eig1 false true true true true true true (wave 0) wave_l old = Done l' /\ lderiv 1 L 0 (flagged true true l').
Proof.
  intros old. exists (fun s => eig_layer 1 solves eig1 true true (wave s)), (eig_layer_l 1 solves eig1 true true true true true true (wave 0) wave_l old).
  assert (omega (wave 0) <> 0) as O by (cbn; lra).
  assert (layer_of_l 1 solves eig1 false true true true true true true (wave 0) wave_l old = Done (eig_layer_l 1 solves eig1 true true true true true true (wave 0) wave_l old)) as H.
  { unfold layer_of_l. destruct (Req_EM_T (omega (wave 0)) 0); [contradiction|reflexivity]. }
  assert (around 0 (fun s => layer_of 1 solves eig1 false true true (wave s) = Done (eig_layer 1 solves eig1 true true (wave s)))) as A.
  { exists (1/4). split; [lra|]. intros s Hs. rewrite Rminus_0_r in Hs. apply Rabs_def2 in Hs. unfold layer_of. destruct (Req_EM_T (omega (wave s)) 0) as [Z|_]; [cbn in Z; lra|reflexivity]. }
  refine (conj A (conj H _)).
  - refine (C46_layer_gradient 1 solves eig1 false true true true true true true wave 0 wave_l old _ _ ltac:(lia) solves_1 (fun _ => solves_2) (fun _ => solves_2) eig1_ok
      eig1_normalised _ wave_varies _ (fun _ _ => wave_moves) (fun _ _ => O) A H).
    + intros i Hi. cbn. lra.
    + unfold flags_ok. tauto.
Qed.

(** With an albedo of zero the derivative with respect to the albedo is wrong, although all other inputs are as required: the layer is treated as one
    that scatters nothing, and the reflection that scattering would add is lost. *)
Definition dim (s : R) : slab := {| qx := fun _ => 1; qw := fun _ => 1; zeroth := true; flux0 := 1; omega := s; ltau := 1; as_0 := 1;
  atran := exp (- 1); btran := 1; planck0 := 1; planck1 := 2; P_pp := fun _ _ => 1; P_mp := fun _ _ => 1; Q_mm := fun _ => 1; Q_pm := fun _ => 1 |}.
Definition dim_l : slab := {| qx := zvec; qw := zvec; zeroth := true; flux0 := 0; omega := 1; ltau := 0; as_0 := 0; atran := 0; btran := 0;
  planck0 := 0; planck1 := 0; P_pp := zmat; P_mp := zmat; Q_mm := zvec; Q_pm := zvec |}.
Lemma dim_varies : varies 1 true true true dim 0 dim_l.
Proof.
  unfold varies. cbn [dim dim_l qx qw zeroth flux0 omega ltau as_0 atran btran planck0 planck1 P_pp P_mp Q_mm Q_pm].
  refine (conj _ (conj (conj _ (conj _ (conj _ (conj _ (conj _ _))))) (conj (conj _ (conj _ _)) (conj _ _)))); try apply dl_const; try apply dl_id.
  - intros s. repeat split.
  - intros i j _ _. apply dl_const.
  - intros i j _ _. apply dl_const.
  - intros i _. apply dl_const.
  - intros i _. apply dl_const.
Qed.
Lemma dim_moves : layer_moves 1 false false true dim 0.
Proof.
  unfold layer_moves. refine (conj _ (conj _ (conj _ (conj _ _)))); try discriminate.
  - exists (1/4). split; [lra|]. intros s Hs. rewrite Rminus_0_r in Hs. split; [|cbn; lra]. refine (conj _ (conj _ _)).
    + intros i Hi. cbn. lra.
    + intros i j Hi Hj. cbn. split; reflexivity.
    + intros i Hi _. unfold total, factor. cbn. rewrite Rabs_R1. replace (1 * (1 + 1) / 4 * s) with (1 / 2 * s) by field. rewrite Rabs_mult, (Rabs_right (1/2)) by lra. lra.
  - eexists. apply eig1_system.
  - intros _. apply simple_1.
Qed.
Lemma dim_parts : let x := dim 0 in
  t_plus_r x 0%nat 0%nat = - 1 /\ t_minus_r x 0%nat 0%nat = - 1 /\ gam 1 x 0%nat 0%nat = 1 /\ t_plus_r_l x dim_l 0%nat 0%nat = 0 /\ gam_l 1 x dim_l 0%nat 0%nat = - 1.
Proof.
  cbv zeta. unfold gam, gam_l, mmul, total, t_plus_r, t_minus_r, t_plus_r_l, t_minus_r_l, local_t, local_r, local_t_l, local_r_l, local_mat, local_mat_l, scaled, mul_diag, diag_mul, madd, less, inv_qx, factor, zmat.
  cbn -[Rdiv]. unfold zmat. refine (conj _ (conj _ (conj _ (conj _ _)))); field.
Qed.
Lemma solves_at : forall m a, solves 1 m a 0%nat 0%nat = a 0%nat 0%nat / m 0%nat 0%nat.
Proof. reflexivity. Qed.
Lemma dim_R : glob_R 1 solves eig1 (dim 0) 0%nat 0%nat = 0 /\ glob_R_l 1 solves eig1 (dim 0) dim_l 0%nat 0%nat = (1 - exp (- 1) * exp (- 1)) / 4.
Proof.
  destruct dim_parts as (A & B & C & D & E). cbv zeta in A, B, C, D, E. set (x := dim 0) in *.
  assert (evecs 1 eig1 x 0%nat 0%nat = 1) as Ve by reflexivity.
  assert (evals 1 eig1 x 0%nat = 1) as Va by exact C.
  assert (nu 1 eig1 x 0%nat = 1) as N by (unfold nu; rewrite Va, Rabs_R1; apply sqrt_1).
  assert (w1n 1 eig1 x 0%nat 0%nat = - 1) as W by (unfold w1n, mul_dinv, mmul, total; rewrite N, Ve, A; field).
  assert (X_p 1 eig1 x 0%nat 0%nat = 0) as XP by (unfold X_p, scaled, madd; rewrite Ve, W; field).
  assert (X_m 1 eig1 x 0%nat 0%nat = 1) as XM by (unfold X_m, scaled, less; rewrite Ve, W; field).
  assert (lambda 1 eig1 x 0%nat = exp (- 1)) as La by (unfold lambda; rewrite N; f_equal; unfold x; cbn; ring).
  assert (ga 1 eig1 x 0%nat 0%nat = 0) as Ga by (unfold ga, mul_diag; rewrite XP; ring).
  assert (gb 1 solves eig1 x 0%nat 0%nat = 0) as Gb by (unfold gb; rewrite solves_at; rewrite Ga, XM; field).
  assert (gc 1 solves eig1 x 0%nat 0%nat = 1) as Gc by (unfold gc, less, mmul, total; rewrite Ga, XM; ring).
  assert (gd 1 solves eig1 x 0%nat 0%nat = 0) as Gd by (unfold gd; rewrite solves_at; rewrite XP, Gc; field).
  assert (ge 1 solves eig1 x 0%nat 0%nat = exp (- 1)) as Ge by (unfold ge; rewrite solves_at; unfold mul_diag; rewrite XM, La, Gc; field).
  split. { unfold glob_R, less, mmul, total. rewrite Ge, Gb, Gd. ring. }
  assert (bordered 1 eig1 x 0 0%nat 0%nat = 2) as B00 by (unfold bordered; cbn [Nat.eqb]; rewrite Va, Ve, sqrt_1; ring).
  assert (bordered 1 eig1 x 0 0%nat 1%nat = 0) as B01 by (unfold bordered; cbn [Nat.eqb]; rewrite C, Va; ring).
  assert (bordered 1 eig1 x 0 1%nat 0%nat = 0) as B10 by reflexivity.
  assert (bordered 1 eig1 x 0 1%nat 1%nat = 1) as B11 by (unfold bordered; cbn [Nat.eqb]; exact Ve).
  assert (eig_B 1 eig1 x dim_l 0 0%nat = - 1) as E0 by (unfold eig_B, mv, dot, total; cbn [Nat.eqb]; rewrite E, Ve; ring).
  assert (eig_B 1 eig1 x dim_l 0 1%nat = 0) as E1 by reflexivity.
  assert (trivial 1 eig1 x 0 = false) as Tr by reflexivity.
  assert (nu_l 1 solves eig1 x dim_l 0%nat = - 1 / 2) as NL.
  { unfold nu_l. rewrite Tr. unfold eig_z, csolve, solves, det2, transp. cbv beta iota. rewrite ?B00, ?B01, ?B10, ?B11, ?E0, ?E1. field. }
  assert (evecs_l 1 solves eig1 x dim_l 0%nat 0%nat = 0) as VL.
  { unfold evecs_l. rewrite Tr. unfold eig_z, csolve, solves, det2, transp. cbv beta iota. rewrite ?B00, ?B01, ?B10, ?B11, ?E0, ?E1. field. }
  assert (w2n 1 solves eig1 x dim_l 0%nat 0%nat = - 1 / 2) as W2.
  { unfold w2n, mul_dinv, less, madd, mmul, mul_diag, total. rewrite D, VL, NL, W, N. field. }
  assert (X_p_l 1 solves eig1 x dim_l 0%nat 0%nat = - 1 / 4) as XPL by (unfold X_p_l, scaled, madd; rewrite VL, W2; field).
  assert (X_m_l 1 solves eig1 x dim_l 0%nat 0%nat = 1 / 4) as XML by (unfold X_m_l, scaled, less; rewrite VL, W2; field).
  assert (gf 1 solves eig1 x dim_l 0%nat 0%nat = - 1 / 4 * exp (- 1)) as Gf by (unfold gf, madd, mul_diag; rewrite XPL, XP, La; ring).
  assert (gg 1 solves eig1 x dim_l 0%nat 0%nat = - 1 / 4 * exp (- 1)) as Gg by (unfold gg; rewrite solves_at; unfold less, mmul, total; rewrite Gf, Gb, XM; field).
  assert (gp 1 solves eig1 x dim_l 0%nat 0%nat = - 1 / 4) as Gp by (unfold gp; rewrite solves_at; unfold less, mmul, total; rewrite XPL, Gd, Gc; field).
  unfold glob_R_l, less, madd, mmul, total. rewrite Gb, Ge, Gg, Gp. field.
Qed.
Theorem C46_no_scattering_refuted : exists X dx, varies 1 true true true X 0 dx /\ layer_moves 1 false false true X 0 /\ omega (X 0) = 0 /\ omega dx = 1 /\
  forall L l' old, (forall s, layer_of 1 solves eig1 false false false (X s) = Done (L s)) -> layer_of_l 1 solves eig1 false false false true true true true (X 0) dx old = Done l' ->
    Rm l' 0%nat 0%nat = 0 /\ derivable_pt_lim (fun s => Rm (L s) 0%nat 0%nat) 0 ((1 - exp (- 1) * exp (- 1)) / 4) /\ ~ lderiv 1 L 0 (flagged true true l').
Proof.
  exists dim, dim_l. refine (conj dim_varies (conj dim_moves (conj eq_refl (conj eq_refl _)))). intros L l' old H H'.
  assert (Rm l' = zmat) as Z.
  { unfold layer_of_l in H'. destruct (Req_EM_T (omega (dim 0)) 0) as [_|N]; [|elim N; reflexivity]. unfold dull_layer_l in H'. cbn [orb] in H'. injection H' as <-. reflexivity. }
  assert (derivable_pt_lim (fun s => Rm (L s) 0%nat 0%nat) 0 ((1 - exp (- 1) * exp (- 1)) / 4)) as D.
  { apply (eq_around (fun s => glob_R 1 solves eig1 (dim s) 0%nat 0%nat)).
    - apply around_true. intros s. specialize (H s). unfold layer_of in H. destruct (Req_EM_T (omega (dim s)) 0) as [E|_].
      + cbn in E. subst s. unfold dull_layer in H. cbn [orb] in H. injection H as <-. cbn [Rm]. apply dim_R.
      + cbn [orb] in H. injection H as <-. reflexivity.
    - rewrite <- (proj2 dim_R). destruct dim_moves as (Nr & Sep & Smp & _).
      exact (proj1 (d_RT 1 solves eig1 ltac:(lia) solves_1 eig1_ok eig1_normalised dim 0 dim_l true true true dim_varies Nr Sep (fun _ => conj solves_2 (Smp eq_refl))) 0%nat 0%nat ltac:(lia) ltac:(lia)). }
  refine (conj _ (conj D _)); [rewrite Z; reflexivity|]. intros (D' & _). specialize (D' 0%nat 0%nat ltac:(lia) ltac:(lia)).
  cbn [flagged Rm] in D'. rewrite Z in D'. pose proof (uniqueness_limite _ _ _ _ D D') as U. unfold zmat in U.
  assert (exp (- 1) < 1). { rewrite <- exp_0. apply exp_increasing. lra. } pose proof (exp_pos (- 1)). nra.
Qed.
(** Distinct eigenvalues are enough for a differentiable eigensystem to exist: along any differentiable family of matrices the eigenvectors can be continued. *)
Theorem C46_eigensystem_differentiable : forall n m p m' e0, mderiv n m p m' -> eigensystem n (m p) e0 -> distinct n (fst e0) ->
  exists e lam' v', eigenpath n m p e lam' v' /\ e p = e0.
Proof. exact eigenpath_exists. Qed.

Print Assumptions C46_layer_gradient.
Print Assumptions C46_no_scattering_refuted.
Print Assumptions C46_eigensystem_differentiable.
