(** The boundary conditions that the system of the boundary value solver expresses have one solution, and it is the light of the atmosphere. *)
From Coq Require Import Reals Bool Arith ZArith List Lia Lra.
From Verif Require Import Base DeltaMSpec DeltaMProofs AddingModel AddingSpec AddingMat RadianceModel RadianceSpec
  EigModel EigSpec EigMat EigCore EigProofs EigEnergy EigLayer EigProperties AtmSpec AtmProofs AtmLight AtmProperties BvpModel BvpSpec BvpProofs.
Import ListNotations.
Open Scope R_scope.

(** What C45 requires of a layer, for all of them, none of them exempt *)
Definition bright : nat -> bool := fun _ => false.

Section Same.
Variable n : nat.
Variable solve : nat -> mat -> mat -> mat.
Variable eig : mat -> vec * mat.
Hypothesis Pos : (0 < n)%nat.
Hypothesis Solve1 : solver n (solve n).
Hypothesis EigS : eigensolver n eig.
Variables (solar thermal : bool).
Hypothesis Solve2 : thermal = true -> solver (n + n) (solve (n + n)%nat).
Variable m : nat.
Variable xs : nat -> slab.
Hypothesis Ok_layers : layers_ok n m bright solar thermal xs.
Notation g := (weights xs).
Notation ls := (fun k => eig_layer n solve eig solar thermal (xs k)).
Lemma bv_exact : forall k, (k <= m)%nat -> forall d1 u2 u1 d2, interacts n (ls k) d1 u2 u1 d2 <-> exists Ip Im, lit n solar thermal (xs k) Ip Im /\ ends n (ltau (xs k)) Ip Im d1 u2 u1 d2.
Proof.
  intros k Hk d1 u2 u1 d2. destruct (Ok_layers k Hk) as ((Sc & LP & _ & Sep & So & Th) & _). unfold lit. rewrite <- factor_is.
  apply layer_exact; try assumption.
  - exact (Sep eq_refl).
  - intros T. exact (conj (Solve2 T) (Th T)).
Qed.
Lemma bv_absorbing : forall k, (k <= m)%nat -> absorbing n g (ls k).
Proof.
  intros k Hk. destruct (Ok_layers k Hk) as ((Sc & LP & _) & Ex & Ew). unfold weights. rewrite <- Ex, <- Ew.
  apply (light_absorbing n solar thermal (xs k) (ls k) Sc LP). intros. apply (bv_exact k Hk). assumption.
Qed.
Lemma bv_unique : forall k, (k <= m)%nat -> forall Ip Im Ip' Im', lit n solar thermal (xs k) Ip Im -> lit n solar thermal (xs k) Ip' Im' ->
  (forall i, (i < n)%nat -> Im i 0 = Im' i 0 /\ Ip i (ltau (xs k)) = Ip' i (ltau (xs k))) -> forall i s, (i < n)%nat -> 0 <= s <= ltau (xs k) -> Ip i s = Ip' i s /\ Im i s = Im' i s.
Proof using Ok_layers.
  intros k Hk. destruct (Ok_layers k Hk) as ((Sc & LP & _) & _). exact (C45_light_unique n solar thermal (xs k) Sc LP).
Qed.
Lemma bv_back : forall Rs t b Ip Im, atmosphere n m solar thermal xs Rs t b Ip Im ->
  field n m ls {| fR := Rs; fS := b |} t (fun i => Ip 0%nat i 0) (fun i => Im m i (ltau (xs m))) (fun i => Ip m i (ltau (xs m))).
Proof.
  intros Rs t b Ip Im (B & F). split.
  - apply (through_between n solar thermal xs ls m bv_exact). exists Ip, Im. split; [exact B|]. intros. tauto.
  - intros i Hi. rewrite (F i Hi). reflexivity.
Qed.
Lemma bv_same : forall Rs t b Ip Im Ip' Im', surface_ok n g Rs -> atmosphere n m solar thermal xs Rs t b Ip Im -> atmosphere n m solar thermal xs Rs t b Ip' Im' -> same_light n m xs Ip Im Ip' Im'.
Proof.
  intros Rs t b Ip Im Ip' Im' Su A A'. pose proof (g_pos n solar thermal m bright xs Ok_layers) as G.
  destruct (bottom_unique n ls g G m Rs b t _ _ _ _ _ _ bv_absorbing Su (bv_back _ _ _ _ _ A) (bv_back _ _ _ _ _ A')) as (V & _).
  apply (between_unique n solar thermal xs ls g G m bv_absorbing bv_exact bv_unique t); [apply A|apply A'|exact V].
Qed.
End Same.

Section Light.
Variable n : nat.
Variable solve : nat -> mat -> mat -> mat.
Variable eigs : nat -> mat -> vec * mat.               (* an eigensystem of each layer *)
Hypothesis Pos : (0 < n)%nat.
Hypothesis Solve1 : solver n (solve n).
Variables (solar thermal : bool).
Hypothesis Solve2 : thermal = true -> solver (n + n) (solve (n + n)%nat).
Variable m : nat.
Variable xs : nat -> slab.
Hypothesis Ok_layers : layers_ok n m bright solar thermal xs.
Hypothesis Eigs : forall k, (k <= m)%nat -> eigensystem n (gam n (xs k)) (eigs k (gam n (xs k))).
Variable surf : option mat.
Notation ws := (fun k => waves_of n solve (eigs k) (xs k)).
Notation pb := (part n).

(** The light that the coefficients stand for *)
Definition light_p (B : vec) (k : nat) : beam := fun i s => hom_p n (eigs k) (xs k) (pb B (2 * k)) (pb B (2 * k + 1)) i s + part_p n solve (xs k) solar thermal i s.
Definition light_m (B : vec) (k : nat) : beam := fun i s => hom_m n (eigs k) (xs k) (pb B (2 * k)) (pb B (2 * k + 1)) i s + part_m n solve (xs k) solar thermal i s.
Lemma light_lit : forall B k, (k <= m)%nat -> lit n solar thermal (xs k) (light_p B k) (light_m B k).
Proof using Pos Solve1 Eigs Solve2 Ok_layers.
  intros B k Hk. destruct (Ok_layers k Hk) as ((Sc & LP & _ & Sep & So & Th) & _). pose proof (Eigs k Hk) as E. unfold lit. rewrite <- factor_is.
  pose proof (mu_nz n (xs k) Sc) as Q. apply (sys_transfers n (xs k) Q).
  set (J := source solar thermal (omega (xs k)) (flux0 (xs k)) (btran (xs k)) (as_0 (xs k)) (planck0 (xs k)) (planck1 (xs k)) (ltau (xs k)) (Q_pm (xs k))).
  set (J' := source solar thermal (omega (xs k)) (flux0 (xs k)) (btran (xs k)) (as_0 (xs k)) (planck0 (xs k)) (planck1 (xs k)) (ltau (xs k)) (Q_mm (xs k))).
  apply (sys_ext n (xs k) (fun i s => 0 + J i s / qx (xs k) i) (fun i s => 0 + J' i s / qx (xs k) i)).
  - unfold light_p, light_m. apply sys_plus.
    + apply hom_solves; [exact E|exact (evals_pos n (eigs k) (xs k) Sc E)].
    + apply (part_solves n solve (eigs k) (xs k) Pos Solve1 Q E (evals_pos n (eigs k) (xs k) Sc E)).
      * intros S. destruct (So S) as (A & C & D). refine (conj A (conj _ D)). exact (beam_f_nonsingular n (xs k) Sc A C).
      * intros T. exact (conj (Solve2 T) (Th T)).
  - intros. split; ring.
Qed.
Lemma end_p0 : forall B k i, light_p B k i 0 = Up0 n ws B k i + P0p ws solar thermal k i.
Proof using.
  intros. unfold light_p. rewrite hom_p0. unfold Up0, P0p, part_p, lin_p, lam. cbn [waves_of b_ltau b_nu b_Xp b_Xm b_Fp b_0p]. unfold vscale, F0_p. rewrite Rmult_0_r, exp_0.
  case solar; case thermal; ring.
Qed.
Lemma end_m0 : forall B k i, light_m B k i 0 = Dn0 n ws B k i + P0m ws solar thermal k i.
Proof using.
  intros. unfold light_m. rewrite hom_m0, a_mv. unfold Dn0, P0m, part_m, lin_m, lam. cbn [waves_of b_ltau b_nu b_Xp b_Xm b_Fm b_0m]. unfold vscale, F0_m. rewrite Rmult_0_r, exp_0.
  case solar; case thermal; ring.
Qed.
Lemma end_pL : forall B k i, (k <= m)%nat -> light_p B k i (ltau (xs k)) = UpL n ws B k i + P1p ws solar thermal k i.
Proof using Ok_layers.
  intros B k i Hk. destruct (Ok_layers k Hk) as ((_ & _ & _ & _ & So & _) & _).
  unfold light_p. rewrite hom_pL, a_mv. unfold UpL, P1p, part_p, lin_p, lam. cbn [waves_of b_ltau b_nu b_Xp b_Xm b_Fp b_1p b_atran]. unfold vscale, F1_p, vadd, vscale.
  case_eq solar; [intros S; destruct (So S) as (_ & _ & <-)|intros _]; case thermal; ring.
Qed.
Lemma end_mL : forall B k i, (k <= m)%nat -> light_m B k i (ltau (xs k)) = DnL n ws B k i + P1m ws solar thermal k i.
Proof using Ok_layers.
  intros B k i Hk. destruct (Ok_layers k Hk) as ((_ & _ & _ & _ & So & _) & _).
  unfold light_m. rewrite hom_mL. unfold DnL, P1m, part_m, lin_m, lam. cbn [waves_of b_ltau b_nu b_Xp b_Xm b_Fm b_1m b_atran]. unfold vscale, F1_m, vadd, vscale.
  case_eq solar; [intros S; destruct (So S) as (_ & _ & <-)|intros _]; case thermal; ring.
Qed.
Lemma rows_atmosphere : forall B top bot, (forall q i, (q < 2 * S m)%nat -> (i < n)%nat -> rows n m ws surf B q i = right n m ws surf solar thermal top bot q i) ->
  atmosphere n m solar thermal xs (reflector surf) top bot (light_p B) (light_m B).
Proof using Pos Solve1 Eigs Solve2 Ok_layers.
  intros B top bot H. apply (system_joined n Pos m ws surf solar thermal top bot B) in H. destruct H as (J1 & J2 & J3). refine (conj (conj _ (conj _ _)) _).
  - intros k Hk. exact (light_lit B k Hk).
  - intros k i Hk Hi. rewrite end_m0, end_p0, end_mL, end_pL by lia. destruct (J2 k i Hk Hi) as (-> & ->). split; reflexivity.
  - intros i Hi. rewrite end_m0. apply J1. exact Hi.
  - intros i Hi. rewrite end_pL by lia. rewrite J3 by exact Hi. f_equal. apply total_ext. intros j Hj. rewrite end_mL by lia. reflexivity.
Qed.
End Light.

Section System.
Variable n : nat.
Variable solve : nat -> mat -> mat -> mat.
Variable eig : mat -> vec * mat.
Hypothesis Pos : (0 < n)%nat.
Hypothesis Solve1 : solver n (solve n).
Hypothesis EigS : eigensolver n eig.
Variable eigs : nat -> mat -> vec * mat.
Variables (solar thermal : bool).
Hypothesis Solve2 : thermal = true -> solver (n + n) (solve (n + n)%nat).
Variable m : nat.
Variable xs : nat -> slab.
Hypothesis Ok_layers : layers_ok n m bright solar thermal xs.
Hypothesis Eigs : forall k, (k <= m)%nat -> eigensystem n (gam n (xs k)) (eigs k (gam n (xs k))).
Variable surf : option mat.
Hypothesis Ok_surface : surface_ok n (weights xs) (reflector surf).
Notation ws := (fun k => waves_of n solve (eigs k) (xs k)).

Lemma no_sources : layers_ok n m bright false false xs.
Proof using Ok_layers.
  intros k Hk. destruct (Ok_layers k Hk) as ((Sc & LP & Du & Sep & _) & E). split; [|exact E].
  refine (conj Sc (conj LP (conj Du (conj Sep (conj _ _))))); discriminate.
Qed.
(** Coefficients whose rows are all zero are zero. *)
Lemma rows_injective : forall B, (forall q i, (q < 2 * S m)%nat -> (i < n)%nat -> rows n m ws surf B q i = 0) -> forall q i, (q < 2 * S m)%nat -> (i < n)%nat -> B (q * n + i)%nat = 0.
Proof using Pos Solve1 EigS Eigs Ok_layers Ok_surface.
  intros B H. pose proof no_sources as Ok0.
  assert (forall t : false = true, solver (n + n) (solve (n + n)%nat)) as S0 by discriminate.
  assert (forall q i, (q < 2 * S m)%nat -> (i < n)%nat -> right n m ws surf false false zvec zvec q i = 0) as Z.
  { intros q i Hq Hi. rewrite right_is by assumption. unfold P0m, P0p, P1p, P1m, zvec.
    rewrite total_zero by (intros j _; destruct (2 * j + 1 =? q)%nat, (2 * j + 2 =? q)%nat; ring).
    rewrite mv_zero by (intros; ring). destruct (0 =? q)%nat, (2 * m + 1 =? q)%nat; ring. }
  assert (atmosphere n m false false xs (reflector surf) zvec zvec (light_p n solve eigs false false xs B) (light_m n solve eigs false false xs B)) as A.
  { apply rows_atmosphere; try assumption. intros q i Hq Hi. rewrite H, Z by assumption. reflexivity. }
  assert (atmosphere n m false false xs (reflector surf) zvec zvec (light_p n solve eigs false false xs zvec) (light_m n solve eigs false false xs zvec)) as A0.
  { apply rows_atmosphere; try assumption. intros q i Hq Hi. rewrite Z by assumption.
    assert (forall a v, (forall j, (j < n)%nat -> v j = 0) -> mv n a v i = 0) as M by (intros; apply mv_zero; assumption).
    assert (forall p j, part n zvec p j = 0) as Pz by reflexivity.
    assert (forall k a j, mv n a (part n zvec k) j = 0) as M1 by (intros; apply mv_zero; intros; apply Pz).
    assert (forall k a d j, mv n a (fun l => d l * part n zvec k l) j = 0) as M2 by (intros; apply mv_zero; intros; rewrite Pz; ring).
    rewrite rows_is by assumption. unfold Dn0, Up0, UpL, DnL. 
    rewrite total_zero by (intros j _; rewrite !M1, !M2; destruct (2 * j + 1 =? q)%nat, (2 * j + 2 =? q)%nat; ring).
    rewrite !M1, !M2. rewrite (M (reflector surf)) by (intros; rewrite M1, M2; ring). destruct (0 =? q)%nat, (2 * m + 1 =? q)%nat; ring. }
  pose proof (bv_same n solve eig Pos Solve1 EigS false false S0 m xs Ok0 (reflector surf) zvec zvec _ _ _ _ Ok_surface A A0) as Sm.
  assert (forall k, (k <= m)%nat -> forall j, (j < n)%nat -> part n B (2 * k) j = 0 /\ part n B (2 * k + 1) j = 0) as K.
  { intros k Hk. destruct (Ok0 k Hk) as ((Sc & LP & _ & Sep & _) & _). pose proof (Eigs k Hk) as E.
    set (b1 := part n B (2 * k)) in *. set (b2 := part n B (2 * k + 1)) in *. set (e := fun j => exp (- nu n (eigs k) (xs k) j * ltau (xs k))).
    assert (forall i, (i < n)%nat -> mv n (X_p n (eigs k) (xs k)) b1 i + mv n (X_m n (eigs k) (xs k)) (fun j => e j * b2 j) i = 0 /\
                                     mv n (X_m n (eigs k) (xs k)) b1 i + mv n (X_p n (eigs k) (xs k)) (fun j => e j * b2 j) i = 0) as Q.
    { intros i Hi. destruct (Sm k i 0 Hk Hi) as (Q1 & Q2); [lra|].
      rewrite !end_p0 in Q1. rewrite !end_m0 in Q2. unfold Up0, Dn0 in Q1, Q2. cbn [waves_of b_ltau b_nu b_Xp b_Xm] in Q1, Q2. unfold lam in Q1, Q2. cbn [waves_of b_ltau b_nu b_Xp b_Xm] in Q1, Q2.
      assert (forall a j, mv n a (part n zvec (2 * k)) j = 0) as M1 by (intros; apply mv_zero; reflexivity).
      assert (forall a d j, mv n a (fun l => d l * part n zvec (2 * k + 1) l) j = 0) as M2 by (intros; apply mv_zero; intros; unfold part, zvec; ring).
      rewrite M1, (M2 _ (fun j => exp (- nu n (eigs k) (xs k) j * ltau (xs k)))) in Q1. rewrite M1, (M2 _ (fun j => exp (- nu n (eigs k) (xs k) j * ltau (xs k)))) in Q2.
      fold b1 b2 in Q1, Q2. unfold e. lra. }
    assert (forall j, (j < n)%nat -> b1 j + e j * b2 j = 0) as QV.
    { apply (V_inj n (eigs k) (xs k) E). intros i Hi. destruct (Q i Hi) as (Q1 & Q2). rewrite !Xp_mv, !Xm_mv in Q1, Q2. rewrite mv_plus. lra. }
    assert (forall j, (j < n)%nat -> b1 j - e j * b2 j = 0) as QW.
    { apply (W_inj n (eigs k) (xs k) Sc E). intros i Hi. destruct (Q i Hi) as (Q1 & Q2). rewrite !Xp_mv, !Xm_mv in Q1, Q2. rewrite mv_minus. lra. }
    intros j Hj. pose proof (QV j Hj). pose proof (QW j Hj). assert (0 < e j) by apply exp_pos. split; [lra|].
    assert (e j * b2 j = 0) as Q0 by lra. apply Rmult_integral in Q0. destruct Q0; [lra|assumption]. }
  intros q i Hq Hi. destruct (Nat.Even_or_Odd q) as [(k & ->)|(k & ->)]; destruct (K k ltac:(lia) i Hi); assumption.
Qed.
Lemma matrix_nonsingular : forall a, (forall B q i, (q < 2 * S m)%nat -> (i < n)%nat -> mv (n_comp n m) (unband (n_diags n) (n_diags n) a) B (q * n + i)%nat = rows n m ws surf B q i) ->
  nonsingular (n_comp n m) (unband (n_diags n) (n_diags n) a).
Proof using Pos Solve1 EigS Eigs Ok_layers Ok_surface.
  intros a H. apply injective_nonsingular. intros B Z r Hr. rewrite n_comp_is in Hr by exact Pos. destruct (block_ex n (2 * S m) r Pos Hr) as (q & i & Hq & Hi & ->).
  apply rows_injective; try assumption. intros q' i' Hq' Hi'. rewrite <- H by assumption. apply Z. rewrite n_comp_is by exact Pos.
  apply Nat.lt_le_trans with (q' * n + n)%nat; [lia|]. replace (q' * n + n)%nat with (S q' * n)%nat by ring. apply Nat.mul_le_mono_r. lia.
Qed.
Variable gb : nat -> nat -> nat -> mat -> option (vec -> vec).
Hypothesis Band : band_solver (n_comp n m) (n_diags n) (n_diags n) (gb (n_comp n m) (n_diags n) (n_diags n)).
Lemma system_solved : forall top bot, exists B, solve_bvp n gb m ws surf solar thermal top bot = Ok B /\
  atmosphere n m solar thermal xs (reflector surf) top bot (light_p n solve eigs solar thermal xs B) (light_m n solve eigs solar thermal xs B).
Proof.
  intros top bot. destruct (assembled n Pos m ws surf) as (a & Ea & Ha). pose proof (matrix_nonsingular a Ha) as NS. destruct (Band a NS) as (f & Ef & Hf).
  exists (f (rhs n m ws surf solar thermal top bot)). unfold solve_bvp. rewrite Ea. cbn [bind]. rewrite Ef. split; [reflexivity|].
  apply rows_atmosphere; try assumption. intros q i Hq Hi. rewrite <- Ha by assumption. unfold mv, right. apply Hf.
  rewrite n_comp_is by exact Pos. apply Nat.lt_le_trans with (q * n + n)%nat; [lia|]. replace (q * n + n)%nat with (S q * n)%nat by ring. apply Nat.mul_le_mono_r. lia.
Qed.
End System.
