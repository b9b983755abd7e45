(** C37: doubling gives what a pile of 2^N equal thin layers does, and its derivatives. *)
From Coq Require Import Reals Bool Arith Lia Lra List ZArith.
From Verif Require Import Base DerivsModel DeltaMSpec DeltaMProofs BeamProofs AddingModel AddingSpec AddingMat AddingJoin AddingDeriv AddingLin AddingCalls
  AddingProperties DoublingModel DoublingSpec DoublingProofs DoublingLoop DoublingCalls.
Open Scope R_scope.

(** The number of doublings: the thin layers are thinner than the thickness asked for, or than the layer itself when that is
    thinner still, but not by more than a factor of two. *)
Theorem C37_thin_enough : forall ltau d_tau, 0 < ltau -> 0 < d_tau ->
  let d := Rmin ltau d_tau in let N := n_doub ltau d_tau in
  (1 <= N)%nat /\ d / 2 <= ltau / 2 ^ N < d.
Proof.
  intros l d0 Hl Hd d N. assert (0 < d) as D by (unfold d; apply Rmin_glb_lt; assumption).
  assert (d <= l) as Dl by (unfold d; apply Rmin_l).
  assert (0 < ln 2) as L2 by (rewrite <- ln_1; apply ln_increasing; lra).
  assert (1 <= l / d) as Q. { apply (Rmult_le_reg_r d); [exact D|]. unfold Rdiv. rewrite Rmult_assoc, Rinv_l; lra. }
  set (x := ln (l / d) / ln 2). assert (0 <= x) as X.
  { unfold x. apply Rmult_le_pos; [|left; apply Rinv_0_lt_compat, L2]. rewrite <- ln_1. destruct Q as [Q|Q]; [left; apply ln_increasing; lra|rewrite <- Q; lra]. }
  destruct (base_Int_part (x + 1)) as [A B]. set (z := Int_part (x + 1)) in *.
  assert (1 <= z)%Z as Z1. { assert (0 < z)%Z; [|lia]. apply lt_IZR. lra. }
  assert (N = Z.to_nat z) as EN by reflexivity. assert (1 <= N)%nat as N1 by lia. split; [exact N1|].
  assert (IZR z = INR N) as EZ by (rewrite EN, INR_IZR_INZ, Z2Nat.id by lia; reflexivity). rewrite EZ in A, B.
  assert (l / d = Rpower 2 x) as P. { unfold Rpower, x. unfold Rdiv at 2. rewrite Rmult_assoc, Rinv_l, Rmult_1_r by lra. rewrite exp_ln; lra. }
  assert (0 < 2 ^ N) as P0 by (apply pow_lt; lra).
  assert (2 ^ N = Rpower 2 (INR N)) as PN by (rewrite Rpower_pow; lra).
  assert (l / d < 2 ^ N) as U. { rewrite P, PN. apply Rpower_lt; lra. }
  assert (2 ^ N <= 2 * (l / d)) as V.
  { rewrite P, PN. replace (2 * Rpower 2 x) with (Rpower 2 (x + 1)); [apply Rle_Rpower; lra|]. rewrite Rpower_plus, Rpower_1 by lra. ring. }
  assert (l = d * (l / d)) as E by (field; lra). split.
  - apply (Rmult_le_reg_r (2 ^ N)); [exact P0|]. unfold Rdiv at 2. rewrite Rmult_assoc, Rinv_l, Rmult_1_r by lra. rewrite E.
    apply Rle_trans with (d / 2 * (2 * (l / d))); [apply Rmult_le_compat_l; lra|right; field; lra].
  - apply (Rmult_lt_reg_r (2 ^ N)); [exact P0|]. unfold Rdiv at 1. rewrite Rmult_assoc, Rinv_l, Rmult_1_r by lra. rewrite E at 1.
    apply Rmult_lt_compat_l; assumption.
Qed.
(** not vacuous: an optical thickness of one at steps of 1/8 is cut into slices between 1/16 and 1/8 *)
Example thin_enough_ex : (1 <= n_doub 1 (1/8))%nat /\ 1/8/2 <= 1 / 2 ^ n_doub 1 (1/8) < 1/8.
Proof. pose proof (C37_thin_enough 1 (1/8) ltac:(lra) ltac:(lra)) as H. cbv zeta in H. rewrite (Rmin_right 1 (1/8)) in H by lra. exact H. Qed.

Section Exact.
Variables (n : nat) (solve : mat -> mat -> mat) (ns : nat) (F_0 : R) (qx : vec) (N : nat) (solar thermal vector : bool) (nd : nat) (dl db dt : nat -> bool).
Notation call := (doub_rts n solve ns F_0 qx N solar thermal vector nd dl db dt).

(** Reflection, transmission and solar source are those of the pile, at every number of doublings, whatever was in the arrays
    before and whichever derivatives are asked for. *)
Theorem C37_solar_exact : forall g g_l old old_l junk, solver n solve -> vector = true \/ (1 <= ns <= 2)%nat ->
  solar = true -> slices_regular n ns N g ->
  stands_for n (2 ^ N - 1) (sunlit ns F_0 qx N g) (solar_layer ns (fst (call g g_l old old_l junk))).
Proof.
  intros g g_l old old_l junk So V E Rg.
  exact (sun_values n solve So ns F_0 qx N solar thermal vector nd dl db dt V (fun _ => g) 0 g_l old old_l junk E Rg).
Qed.
(** The same of the thermal source, for up to two Stokes components and a Planck function that is not zero at the top *)
Theorem C37_thermal_exact : forall g g_l old old_l junk, solver n solve ->
  thermal = true -> slices_regular n ns N g -> (1 <= ns <= 2)%nat -> planck0 g <> 0 \/ planck1 g = 0 ->
  stands_for n (2 ^ N - 1) (emitting ns qx N g) (thermal_layer ns (fst (call g g_l old old_l junk))).
Proof.
  intros g g_l old old_l junk So E Rg Hs P.
  exact (warm_values n solve So ns F_0 qx N solar thermal vector nd dl db dt (or_intror Hs) (fun _ => g) 0 g_l old old_l junk E Rg Hs P).
Qed.
(** Derivative [j] is the derivative of what the pile does. *)
Theorem C37_solar_derivs_exact : forall G p g_l old old_l junk j, solver n solve -> vector = true \/ (1 <= ns <= 2)%nat ->
  solar = true -> slices_regular n ns N (G p) -> (j < nd)%nat -> varies n (dl j) (db j) (dt j) G p (g_l j) ->
  (dl j = true -> db j = true) -> (dl j = false -> db j = true -> as_0 (g_l j) = 0) ->
  pile_deriv n (2 ^ N - 1) (fun s => sunlit ns F_0 qx N (G s)) p (flagged (dl j) (db j) (solar_layer ns (snd (call (G p) g_l old old_l junk) j))).
Proof.
  intros G p g_l old old_l junk j So V E Rg Hj Va C B.
  exact (sun_pile n solve So ns F_0 qx N solar thermal vector nd dl db dt V G p g_l old old_l junk j Hj Va E Rg C B).
Qed.
Theorem C37_thermal_derivs_exact : forall G p g_l old old_l junk j, solver n solve ->
  thermal = true -> slices_regular n ns N (G p) -> (j < nd)%nat -> varies n (dl j) (db j) (dt j) G p (g_l j) ->
  (1 <= ns <= 2)%nat -> planck0 (G p) <> 0 -> (dl j = true -> dt j = true) ->
  pile_deriv n (2 ^ N - 1) (fun s => emitting ns qx N (G s)) p (flagged (dl j) (dt j) (thermal_layer ns (snd (call (G p) g_l old old_l junk) j))).
Proof.
  intros G p g_l old old_l junk j So E Rg Hj Va Hs Z C.
  exact (warm_pile n solve So ns F_0 qx N solar thermal vector nd dl db dt (or_intror Hs) G p g_l old old_l junk j Hj Va E Rg Hs Z C).
Qed.
End Exact.

(* ------------------------------------------------------------------------- *)
(** * A concrete layer *)
Definition flat (p0 p1 om tau a r t : R) : column :=
  {| planck0 := p0; planck1 := p1; omega := om; ltau := tau; as_0 := a; P_mm := vc 1; P_pm := vc 1; r_p := sc r; t_p := sc t |}.
(** Two slices joined; reflecting -1/4 each, -31/60 together *)
Lemma flat_regular : forall p0 p1 om a, slices_regular 1 1 2 (flat p0 p1 om 4 a (1/4) 0).
Proof.
  intros p0 p1 om a i c Hi H. set (e := slice 1 2 (flat p0 p1 om 4 a (1/4) 0) zvec zvec) in *.
  assert (Rm e 0%nat 0%nat = - (1/4)) as E1 by (cbn; unfold sc, sign; cbn; field).
  assert (Rp e 0%nat 0%nat = - (1/4)) as E2 by (cbn; unfold sc, sign; cbn; field).
  assert (Tm e 0%nat 0%nat = 1) as E3 by (cbn; unfold sc, sign, ident; cbn; field).
  assert (Tp e 0%nat 0%nat = 1) as E4 by (cbn; unfold sc, sign, ident; cbn; field).
  destruct i as [|[|i]]; [| |lia]; apply regular1.
  - assert (leq 1 c e) as (A & _ & _ & B & _) by (apply (stands_unique 1 0 (fun _ => e)); [exact H|intros d u x y; reflexivity]).
    rewrite (A 0%nat 0%nat), (B 0%nat 0%nat), E1, E2 by lia. lra.
  - assert (leq 1 c (join 1 solve1 1 e e)) as (A & _ & _ & B & _).
    { apply (stands_unique 1 1 (fun _ => e)); [exact H|]. intros d u x y.
      pose proof (join_sound 1 solve1 solver1 1 e e ltac:(apply regular1; rewrite E1, E2; lra) d u x y) as J.
      etransitivity; [exact J|]. cbn [through]. split; intros (f & h & F1 & F2); exists f, h; (split; [exact F1|]);
        apply scaled_one; exact F2. }
    clearbody e. rewrite (A 0%nat 0%nat), (B 0%nat 0%nat) by lia. cbn [join Rm Rp]. unfold madd, mmul, solve1, i_sub, ident, total. cbn [Datatypes.length seq fold_right map]. cbn.
    rewrite ?E1, ?E2, ?E3, ?E4. match goal with |- ?x <> _ => assert (x = 31/60 * (31/60)) as -> by field end. lra.
Qed.

(** The layer with everything varying at once; its derivatives exist and the theorems above apply to it. *)
Definition flat_at (s : R) : column := flat (1 + s) (2 * s) s (4 + s) (3 * s) (1/4) s.
Definition flat_l : column := {| planck0 := 1; planck1 := 2; omega := 1; ltau := 1; as_0 := 3; P_mm := vc 0; P_pm := vc 0; r_p := sc 0; t_p := sc 1 |}.
Lemma lin_d : forall a b p, derivable_pt_lim (fun s => a + b * s) p b.
Proof. intros a b p. eapply dl_eq; [apply dl_plus; [apply dl_const|apply dl_mult; [apply dl_const|apply derivable_pt_lim_id]]|cbv beta; ring]. Qed.
Lemma flat_varies : varies 1 true true true flat_at 0 flat_l.
Proof.
  assert (forall f a b c p, (forall s, f s = a + b * s) -> c = b -> derivable_pt_lim f p c) as L.
  { intros f a b c p E ->. apply (deriv_ext p (fun s => a + b * s)); [intros s; symmetry; apply E|apply lin_d]. }
  unfold varies, on, flat_at, flat_l, flat. cbn [r_p t_p P_mm P_pm omega ltau as_0 planck0 planck1].
  refine (conj _ (conj _ (conj _ (conj _ (conj _ (conj _ (conj _ (conj _ (conj _ _))))))))).
  - intros i j _ _. unfold sc. apply (L _ (1/4) 0); [intros; ring|reflexivity].
  - intros i j _ _. unfold sc. apply (L _ 0 1); [intros; ring|reflexivity].
  - intros i _. unfold vc. apply (L _ 1 0); [intros; ring|reflexivity].
  - intros i _. unfold vc. apply (L _ 1 0); [intros; ring|reflexivity].
  - apply (L _ 0 1); [intros; ring|reflexivity].
  - apply (L _ 4 1); [intros; ring|reflexivity].
  - intros _. apply (L _ 0 3); [intros; ring|reflexivity].
  - discriminate.
  - intros _. split; [apply (L _ 1 1); [intros; ring|reflexivity]|apply (L _ 0 2); [intros; ring|reflexivity]].
  - discriminate.
Qed.
Example exact_ex : forall old old_l junk,
  let all := fun _ : nat => true in let out := doub_rts 1 solve1 1 3 (vc (1/2)) 2 true true false 1 all all all (flat_at 0) (fun _ => flat_l) old old_l junk in
  stands_for 1 3 (sunlit 1 3 (vc (1/2)) 2 (flat_at 0)) (solar_layer 1 (fst out)) /\
  stands_for 1 3 (emitting 1 (vc (1/2)) 2 (flat_at 0)) (thermal_layer 1 (fst out)) /\
  pile_deriv 1 3 (fun s => sunlit 1 3 (vc (1/2)) 2 (flat_at s)) 0 (solar_layer 1 (snd out 0%nat)) /\
  pile_deriv 1 3 (fun s => emitting 1 (vc (1/2)) 2 (flat_at s)) 0 (thermal_layer 1 (snd out 0%nat)).
Proof.
  intros old old_l junk all out. assert (slices_regular 1 1 2 (flat_at 0)) as Rg.
  { unfold flat_at. replace (4 + 0) with 4 by ring. apply flat_regular. }
  refine (conj _ (conj _ (conj _ _))).
  - exact (C37_solar_exact 1 solve1 1 3 (vc (1/2)) 2 true true false 1 all all all (flat_at 0) (fun _ => flat_l) old old_l junk solver1
      (or_intror (conj (le_n 1) (le_S _ _ (le_n 1)))) eq_refl Rg).
  - refine (C37_thermal_exact 1 solve1 1 3 (vc (1/2)) 2 true true false 1 all all all (flat_at 0) (fun _ => flat_l) old old_l junk solver1
      eq_refl Rg (conj (le_n 1) (le_S _ _ (le_n 1))) _). left. cbn. lra.
  - refine (C37_solar_derivs_exact 1 solve1 1 3 (vc (1/2)) 2 true true false 1 all all all flat_at 0 (fun _ => flat_l) old old_l junk 0 solver1
      (or_intror (conj (le_n 1) (le_S _ _ (le_n 1)))) eq_refl Rg (le_n 1) flat_varies _ _); [reflexivity|discriminate].
  - refine (C37_thermal_derivs_exact 1 solve1 1 3 (vc (1/2)) 2 true true false 1 all all all flat_at 0 (fun _ => flat_l) old old_l junk 0 solver1
      eq_refl Rg (le_n 1) flat_varies (conj (le_n 1) (le_S _ _ (le_n 1))) _ _); [cbn; lra|reflexivity].
Qed.

(* ------------------------------------------------------------------------- *)
(** * Where it is not exact *)

(** Two slices that reflect nothing and let everything through *)
Lemma clear_pair : forall (ls : nat -> layer) dn up,
  (forall k, (k <= 1)%nat -> Rm (ls k) 0%nat 0%nat = 0 /\ Rp (ls k) 0%nat 0%nat = 0 /\ Tm (ls k) 0%nat 0%nat = 1 /\ Tp (ls k) 0%nat 0%nat = 1) ->
  dn = Sm (ls 0%nat) 0%nat + Sm (ls 1%nat) 0%nat -> up = Sp (ls 0%nat) 0%nat + Sp (ls 1%nat) 0%nat ->
  stands_for 1 1 ls (plain 0 1 dn up).
Proof.
  intros ls dn up H -> ->. destruct (H 0%nat ltac:(lia)) as (A1 & A2 & A3 & A4). destruct (H 1%nat ltac:(lia)) as (B1 & B2 & B3 & B4).
  intros d u x y. cbn [through]. split.
  - intros E. destruct (E 0%nat ltac:(lia)) as [E1 E2]. cbn in E1, E2. unfold dot, total, sc, vc in E1, E2. cbn in E1, E2.
    exists (fun _ => d 0%nat + Sm (ls 0%nat) 0%nat), (fun _ => u 0%nat + Sp (ls 1%nat) 0%nat).
    split; intros i Hi; assert (i = 0%nat) as -> by lia; unfold dot, total; cbn; rewrite ?A1, ?A2, ?A3, ?A4, ?B1, ?B2, ?B3, ?B4; split; lra.
  - intros (f & h & F1 & F2). destruct (F1 0%nat ltac:(lia)) as [X1 X2]. destruct (F2 0%nat ltac:(lia)) as [Y1 Y2].
    unfold dot, total in X1, X2, Y1, Y2; cbn in X1, X2, Y1, Y2. rewrite A1, A4 in X1. rewrite A3, A2 in X2. rewrite B1, B4 in Y1. rewrite B3, B2 in Y2.
    intros i Hi. assert (i = 0%nat) as -> by lia. cbn. unfold dot, total, sc, vc. cbn. split; lra.
Qed.
Lemma clear_regular : forall p0 p1 om a, slices_regular 1 1 1 (flat p0 p1 om 2 a 0 0).
Proof.
  intros p0 p1 om a i c Hi H. assert (i = 0%nat) as -> by lia. apply regular1.
  assert (leq 1 c (slice 1 1 (flat p0 p1 om 2 a 0 0) zvec zvec)) as (A & _) by (apply (stands_unique 1 0 (fun _ => slice 1 1 (flat p0 p1 om 2 a 0 0) zvec zvec)); [exact H|intros d u x y; reflexivity]).
  rewrite (A 0%nat 0%nat) by lia. cbn. unfold sc. lra.
Qed.
Lemma clear_sun : forall p0 p1 a, stands_for 1 1 (sunlit 1 (4 * PI) (vc 1) 1 (flat p0 p1 1 2 a 0 0)) (plain 0 1 (exp (- a) + exp (- (2 * a))) (exp (- a) + exp (- (2 * a)))).
Proof.
  intros p0 p1 a. pose proof PI_RGT_0 as P.
  apply clear_pair; [intros k _; cbn; unfold sc, sign, ident; cbn; repeat split; field| |]; cbn; unfold vc; cbn;
    (replace (- (1 * (2 / (2 * 1)) * a)) with (- a) by field; replace (- ((1 + 1) * (2 / (2 * 1)) * a)) with (- (2 * a)) by field; field; lra).
Qed.
Lemma clear_warm : forall p0 p1 a, stands_for 1 1 (emitting 1 (vc 1) 1 (flat p0 p1 0 2 a 0 0)) (plain 0 1 (p0 + (p0 + p1) / 2) (p0 + (p0 + p1) / 2)).
Proof.
  intros p0 p1 a.
  apply clear_pair; [intros k _; cbn; unfold sc, sign, ident; cbn; repeat split; field| |]; cbn; unfold vc; cbn; field.
Qed.

(** A derivative with respect to something outside the layer that bends the beam (spherical geometry): only the way through the
    upper of the two halves is accounted for at each doubling, never that through the thin layer itself. *)
Definition bent (s : R) : column := flat 0 0 1 2 s 0 0.
Definition bent_l : column := {| planck0 := 0; planck1 := 0; omega := 0; ltau := 0; as_0 := 1; P_mm := vc 0; P_pm := vc 0; r_p := sc 0; t_p := sc 0 |}.
Theorem C37_beam_derivs_refuted : forall old old_l junk,
  let none := fun _ : nat => false in let all := fun _ : nat => true in
  slices_regular 1 1 1 (bent 1) /\ varies 1 false true false bent 1 bent_l /\
  ~ pile_deriv 1 1 (fun s => sunlit 1 (4 * PI) (vc 1) 1 (bent s)) 1
      (flagged false true (solar_layer 1 (snd (doub_rts 1 solve1 1 (4 * PI) (vc 1) 1 true false false 1 none all none (bent 1) (fun _ => bent_l) old old_l junk) 0%nat))).
Proof.
  intros old old_l junk none all. refine (conj (clear_regular _ _ _ _) (conj _ _)).
  - unfold varies, on, bent, bent_l, flat. cbn [r_p t_p P_mm P_pm omega ltau as_0 planck0 planck1].
    refine (conj _ (conj _ (conj _ (conj _ (conj _ (conj _ (conj _ (conj _ (conj _ _)))))))));
      try (unfold mderiv, vderiv; intros; exact (derivable_pt_lim_const _ _)); try discriminate.
    + intros _. apply derivable_pt_lim_id.
    + intros _. split; exact (derivable_pt_lim_const _ _).
  - intros [_ D]. specialize (D (fun s => plain 0 1 (exp (- s) + exp (- (2 * s))) (exp (- s) + exp (- (2 * s)))) ltac:(apply around_true; intros s; apply clear_sun)).
    destruct D as (_ & _ & D & _). specialize (D 0%nat ltac:(lia)).
    assert (derivable_pt_lim (fun s => exp (- s) + exp (- (2 * s))) 1 (- exp (- (1)) - 2 * exp (- (2 * 1)))) as D'.
    { eapply dl_eq; [apply dl_plus; [apply (dl_exp_neg (fun s => s)), derivable_pt_lim_id|apply (dl_exp_neg (fun s => 2 * s)); apply dl_mult; [apply dl_const|apply derivable_pt_lim_id]]|cbv beta; ring]. }
    pose proof (uniqueness_limite _ _ _ _ D D') as E. clear D D'. pose proof PI_RGT_0 as P. pose proof (exp_pos (- (1))) as X. pose proof (exp_pos (- (2 * 1))) as Y.
    cbn in E. unfold none, all, path_l, tran, thickness, mul_Dv, sg, mul_D, vadd, vscale, mv, mmul, solve1, i_sub, mscale, dinv, total, zvec, vc, sc in E. cbn in E. unfold vc, sc in E.
    replace (exp (- (2 / (2 * 1)) * 1)) with (exp (- (1))) in E by (f_equal; field).
    assert (exp (- (2 * 1)) = exp (- (1)) * exp (- (1))) as Q by (rewrite <- exp_plus; f_equal; ring). rewrite Q in E. set (e := exp (- (1))) in *.
    match type of E with ?x = _ => assert (x = - (e * e)) as W by (field; lra) end. rewrite W in E. nra.
Qed.

(** With a Planck function of zero at the top the layer does not emit at all, however warm its bottom is. *)
Theorem C37_cold_top_refuted : forall nd g_l old old_l junk,
  let none := fun _ : nat => false in let g := flat 0 1 0 2 1 0 0 in
  slices_regular 1 1 1 g /\
  ~ stands_for 1 1 (emitting 1 (vc 1) 1 g) (thermal_layer 1 (fst (doub_rts 1 solve1 1 0 (vc 1) 1 false true false nd none none none g g_l old old_l junk))).
Proof.
  intros nd g_l old old_l junk none g. split; [apply clear_regular|]. intros H.
  assert (linearized false true nd none none none = false) as L.
  { unfold linearized, flags_or, none. cbn [andb orb]. induction (seq 0 nd) as [|k l IH]; [reflexivity|exact IH]. }
  destruct (stands_unique 1 1 _ _ _ H (clear_warm 0 1 1)) as (_ & _ & E & _). specialize (E 0%nat ltac:(lia)).
  unfold doub_rts in E. cbn [passes] in E. unfold pass in E. rewrite L in E. cbn in E. unfold lin_fac, mul_D, mul_Dv, sg, vadd, vscale, mv, solve1, i_sub, mmul, mscale, dinv, total, thickness, vc, sc in E. cbn in E.
  unfold sc, vc in E. destruct (Req_EM_T 0 0) as [_|F]; [|lra].
  match type of E with ?x = ?y => assert (x = 0) as X by field; assert (y = 1 / 2) as Y by field end. lra.
Qed.
(** There, the derivatives are wrong as well, even where the values are right. *)
Definition dawn (s : R) : column := flat s 0 0 2 1 0 0.
Definition dawn_l : column := {| planck0 := 1; planck1 := 0; omega := 0; ltau := 0; as_0 := 0; P_mm := vc 0; P_pm := vc 0; r_p := sc 0; t_p := sc 0 |}.
Theorem C37_cold_top_derivs_refuted : forall old old_l junk,
  let none := fun _ : nat => false in let all := fun _ : nat => true in
  slices_regular 1 1 1 (dawn 0) /\ varies 1 false false true dawn 0 dawn_l /\
  ~ pile_deriv 1 1 (fun s => emitting 1 (vc 1) 1 (dawn s)) 0
      (flagged false true (thermal_layer 1 (snd (doub_rts 1 solve1 1 0 (vc 1) 1 false true false 1 none none all (dawn 0) (fun _ => dawn_l) old old_l junk) 0%nat))).
Proof.
  intros old old_l junk none all. refine (conj (clear_regular _ _ _ _) (conj _ _)).
  - unfold varies, on, dawn, dawn_l, flat. cbn [r_p t_p P_mm P_pm omega ltau as_0 planck0 planck1].
    refine (conj _ (conj _ (conj _ (conj _ (conj _ (conj _ (conj _ (conj _ (conj _ _)))))))));
      try (unfold mderiv, vderiv; intros; exact (derivable_pt_lim_const _ _)); try discriminate.
    intros _. split; [apply derivable_pt_lim_id|exact (derivable_pt_lim_const _ _)].
  - intros [_ D]. specialize (D (fun s => plain 0 1 (s + (s + 0) / 2) (s + (s + 0) / 2)) ltac:(apply around_true; intros s; apply clear_warm)).
    destruct D as (_ & _ & D & _). specialize (D 0%nat ltac:(lia)).
    assert (derivable_pt_lim (fun s => s + (s + 0) / 2) 0 (3 / 2)) as D'.
    { apply (deriv_ext 0 (fun s => 0 + 3 / 2 * s)); [intros s; field|apply lin_d]. }
    pose proof (uniqueness_limite _ _ _ _ D D') as E. clear D D'.
    cbn in E. unfold none, all, lin_fac, lin_fac_l, thickness, mul_Dv, sg, mul_D, vadd, vscale, mv, mmul, solve1, i_sub, mscale, dinv, total, zvec, vc, sc in E. cbn in E. unfold vc, sc in E.
    destruct (Req_EM_T 0 0) as [_|F]; [|lra].
    match type of E with ?x = _ => assert (x = 2) as X by field end. lra.
Qed.

(** Emission is put into every Stokes component, so that a layer that does not scatter glows with polarised light. *)
Definition glow : column := {| planck0 := 1; planck1 := 1; omega := 0; ltau := 2; as_0 := 0; P_mm := vc 0; P_pm := vc 0; r_p := zmat; t_p := zmat |}.
Theorem C37_emission_unpolarised_refuted : forall solve nd g_l old old_l junk, solver 2 solve ->
  let none := fun _ : nat => false in
  Sm (thermal_layer 2 (fst (doub_rts 2 solve 2 0 (vc 1) 1 false true true nd none none none glow g_l old old_l junk))) 1%nat = 2.
Proof.
  intros solve nd g_l old old_l junk So none. assert (linearized false true nd none none none = false) as L.
  { unfold linearized, flags_or, none. cbn [andb orb]. induction (seq 0 nd) as [|k l IH]; [reflexivity|exact IH]. }
  unfold doub_rts. cbn [passes]. unfold pass. rewrite L. cbn [values fst].
  unfold double. cbn [thermal_layer Sm Sl_p Sl_m start_L andb Nat.eqb hR hT L_m L_p thin fac].
  match goal with |- context [solve ?m ?x] => pose proof (So m x) as Q; set (A := solve m x) in *; assert (nonsingular 2 m) as M end.
  { exists ident. split; intros i j Hi Hj; destruct i as [|[|i]]; try lia; destruct j as [|[|j]]; try lia;
      unfold i_sub, mmul, mul_D, sg, mscale, thickness, total, ident, zmat, glow; cbn; unfold zmat; field. }
  specialize (Q M). clearbody A.
  pose proof (Q 1%nat 0%nat ltac:(lia) ltac:(lia)) as Q0. pose proof (Q 1%nat 1%nat ltac:(lia) ltac:(lia)) as Q1.
  unfold i_sub, mmul, mul_D, sg, mscale, thickness, total, ident, zmat in Q0, Q1. cbn in Q0, Q1. unfold zmat in Q0, Q1.
  assert (A 1%nat 0%nat = 0) as A0 by lra. assert (A 1%nat 1%nat = 1) as A1 by lra.
  unfold lin_fac. unfold vadd, vscale, mv, mul_D, sg, mscale, dinv, thickness, total, vc, glow. cbn. unfold zmat.
  destruct (Req_EM_T 1 0) as [F|_]; [lra|]. rewrite A0, A1. field.
Qed.

(** With three Stokes components or more the downward emission misses the change of sign that the reflection has had. *)
Definition third : mat := fun i j => if Nat.eqb i 2 && Nat.eqb j 2 then 1/2 else 0.
Definition tilted : column := {| planck0 := 1; planck1 := 1; omega := 0; ltau := 2; as_0 := 0; P_mm := vc 0; P_pm := vc 0; r_p := third; t_p := zmat |}.
Theorem C37_vector_emission_refuted : forall solve nd g_l old old_l junk, solver 3 solve ->
  let none := fun _ : nat => false in
  slices_regular 3 3 1 tilted /\
  ~ stands_for 3 1 (emitting 3 (vc 1) 1 tilted) (thermal_layer 3 (fst (doub_rts 3 solve 3 0 (vc 1) 1 false true true nd none none none tilted g_l old old_l junk))).
Proof.
  intros solve nd g_l old old_l junk So none.
  assert (nonsingular 3 (fun i j => if Nat.eqb i j then if Nat.eqb i 2 then 3/4 else 1 else 0)) as NS.
  { exists (fun i j => if Nat.eqb i j then if Nat.eqb i 2 then 4/3 else 1 else 0).
    split; intros i j Hi Hj; destruct i as [|[|[|i]]]; try lia; destruct j as [|[|[|j]]]; try lia; unfold total, ident; cbn; lra. }
  split.
  - intros i c Hi H. assert (i = 0%nat) as -> by lia.
    assert (leq 3 c (slice 3 1 tilted zvec zvec)) as (A & _ & _ & B & _) by (apply (stands_unique 3 0 (fun _ => slice 3 1 tilted zvec zvec)); [exact H|intros d u x y; reflexivity]).
    refine (proj1 (nonsingular_proper 3 _ _ _) NS). intros i j Hi' Hj.
    rewrite (total_ext 3 _ (fun k => Rm (slice 3 1 tilted zvec zvec) i k * Rp (slice 3 1 tilted zvec zvec) k j)) by (intros k Hk; rewrite (A i k), (B k j) by lia; reflexivity).
    destruct i as [|[|[|i]]]; try lia; destruct j as [|[|[|j]]]; try lia; unfold total, ident, slice, sign, third, tilted; cbn; lra.
  - intros H. assert (linearized false true nd none none none = false) as L.
    { unfold linearized, flags_or, none. cbn [andb orb]. induction (seq 0 nd) as [|k l IH]; [reflexivity|exact IH]. }
    unfold doub_rts in H. cbn [passes] in H. unfold pass in H. rewrite L in H. cbn [values fst] in H.
    match type of H with stands_for _ _ _ ?c => set (out := c) in H end.
    assert (Sp out 2%nat = 3) as O.
    { unfold out, double. cbn [thermal_layer Sp Sl_p Sl_m start_L andb Nat.eqb hR hT L_m L_p thin fac].
      match goal with |- context [solve ?m ?x] => pose proof (So m x) as Q; set (A := solve m x) in *; assert (nonsingular 3 m) as M end.
      { refine (proj1 (nonsingular_proper 3 _ _ _) NS). intros i j Hi Hj.
        destruct i as [|[|[|i]]]; try lia; destruct j as [|[|[|j]]]; try lia; unfold i_sub, mmul, mul_D, sg, mscale, thickness, total, ident, third, tilted; cbn; field. }
      specialize (Q M). clearbody A.
      pose proof (Q 2%nat 0%nat ltac:(lia) ltac:(lia)) as Q0. pose proof (Q 2%nat 1%nat ltac:(lia) ltac:(lia)) as Q1. pose proof (Q 2%nat 2%nat ltac:(lia) ltac:(lia)) as Q2.
      unfold i_sub, mmul, mul_D, sg, mscale, thickness, total, ident, third, zmat in Q0, Q1, Q2. cbn in Q0, Q1, Q2. unfold third, zmat in Q0, Q1, Q2. cbn in Q0, Q1, Q2.
      assert (A 2%nat 0%nat = 0) as A0 by lra. assert (A 2%nat 1%nat = 0) as A1 by lra. assert (A 2%nat 2%nat = 4 / 3) as A2 by lra.
      unfold lin_fac. unfold vadd, vscale, mv, mul_D, sg, mscale, dinv, thickness, total, vc, tilted. cbn. unfold third. cbn.
      destruct (Req_EM_T 1 0) as [F|_]; [lra|]. rewrite A0, A1, A2. field. }
    clearbody out. assert (interacts 3 out zvec zvec (Sp out) (Sm out)) as J.
    { intros i Hi. split; unfold dot, total, zvec; cbn; ring. }
    apply H in J. destruct J as (d & u & J1 & J2). destruct (J1 2%nat ltac:(lia)) as [X1 X2]. destruct (J2 2%nat ltac:(lia)) as [Y1 Y2].
    unfold dot, total, zvec in X1, X2, Y1, Y2. cbn in X1, X2, Y1, Y2. unfold sign, third, zmat, vc, ident in X1, X2, Y1, Y2. cbn in X1, X2, Y1, Y2.
    rewrite O in X1. lra.
Qed.

Print Assumptions C37_thin_enough.
Print Assumptions C37_solar_exact.
Print Assumptions C37_thermal_exact.
Print Assumptions C37_solar_derivs_exact.
Print Assumptions C37_thermal_derivs_exact.
Print Assumptions C37_beam_derivs_refuted.
Print Assumptions C37_cold_top_refuted.
Print Assumptions C37_cold_top_derivs_refuted.
Print Assumptions C37_emission_unpolarised_refuted.
Print Assumptions C37_vector_emission_refuted.
