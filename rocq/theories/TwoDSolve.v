(** The amplitudes of the two-stream solver vary with the solution of the differentiated system. *)
From Coq Require Import Reals Bool Arith List ZArith Lia Lra.
From Verif Require RadianceModel.
From Verif Require Import Base DeltaMSpec DeltaMProofs BeamProofs AddingModel AddingSpec AddingMat AddingCalls EigModel EigSpec EigMat EigProofs SingleProofs EigDProofs ScatModel GaussProofs
  TwoSpec TwoModel TwoProofs TwoLight TwoProperties TwoDSpec TwoDModel TwoDProofs.
Import ListNotations.
Open Scope R_scope.

Ltac nat_tests := repeat match goal with
  | |- context [Nat.eqb ?a ?b] => destruct (Nat.eqb_spec a b); try lia
  | |- context [Nat.ltb ?a ?b] => destruct (Nat.ltb_spec a b); try lia end.
Lemma seen_by : forall d, (t_four d <= 1)%nat -> exists xs, sees d xs.
Proof.
  intros d F. unfold sees. destruct (t_four d) as [|[|f]]; [| |lia]; (eexists; exists zvec, zvec; eexists; eexists; split; [reflexivity|]; split; reflexivity).
Qed.
(** The rows of the right hand side of the differentiated system *)
Lemma fold_rows_l : forall up lo n b, let b' := fold_left (fun b i => let ii := (2 * i - 1)%nat in vset (ii + 1) (lo i) (vset ii (up i) b)) (seq 1 n) b in
  b' 0%nat = b 0%nat /\ forall k, (k < n)%nat -> b' (2 * k + 1)%nat = up (S k) /\ b' (2 * k + 2)%nat = lo (S k).
Proof.
  intros up lo. induction n as [|n IH]; intros b; [split; [reflexivity|intros; lia]|]. cbv zeta. rewrite seq_S, fold_left_app. cbn [fold_left]. specialize (IH b). cbv zeta in IH. destruct IH as (I0 & IK).
  match goal with |- context [fold_left ?f ?l ?x] => set (b1 := fold_left f l x) in * end. unfold vset. split.
  - nat_tests. exact I0.
  - intros k Hk. destruct (Nat.eq_dec k n) as [->|NE].
    + replace (1 + n)%nat with (S n) by lia. nat_tests. split; reflexivity.
    + nat_tests. apply IK. lia.
Qed.
Lemma rhs_l_rows : forall d dl fl solar m g ws wl x,
  rhs_l d dl fl solar m g ws wl x 0%nat = first_l fl solar ws wl x /\
  (forall k, (k < m)%nat -> rhs_l d dl fl solar m g ws wl x (2 * k + 1)%nat = upper_l d dl fl solar ws wl x (S k) /\ rhs_l d dl fl solar m g ws wl x (2 * k + 2)%nat = lower_l d dl fl solar ws wl x (S k)) /\
  rhs_l d dl fl solar m g ws wl x (2 * m + 1)%nat = last_l d dl fl solar m g ws wl x.
Proof.
  intros. unfold rhs_l. destruct (fold_rows_l (upper_l d dl fl solar ws wl x) (lower_l d dl fl solar ws wl x) m (vset 0 (first_l fl solar ws wl x) zvec)) as (F0 & FK). cbv zeta in F0, FK. cbv zeta.
  match goal with |- context [fold_left ?f ?l ?x] => set (b1 := fold_left f l x) in * end. unfold vset at 1 2 3 4. refine (conj _ (conj _ _)).
  - nat_tests. rewrite F0. reflexivity.
  - intros k Hk. nat_tests. apply FK. exact Hk.
  - nat_tests. reflexivity.
Qed.
Lemma odd_row : forall k, (2 * k + 1 =? 0)%nat = false /\ Nat.odd (2 * k + 1) = true /\ ((2 * k + 1) / 2)%nat = k.
Proof. intros k. refine (conj _ (conj _ _)); [apply Nat.eqb_neq; lia|rewrite Nat.add_comm, Nat.odd_add_mul_2; reflexivity|]. replace (2 * k + 1)%nat with (1 + k * 2)%nat by lia. rewrite Nat.div_add by lia. reflexivity. Qed.
Lemma even_row : forall k, (2 * k + 2 =? 0)%nat = false /\ Nat.odd (2 * k + 2) = false /\ ((2 * k + 2) / 2 - 1)%nat = k.
Proof. intros k. refine (conj _ (conj _ _)); [apply Nat.eqb_neq; lia|rewrite Nat.add_comm, Nat.odd_add_mul_2; reflexivity|]. replace (2 * k + 2)%nat with (2 + k * 2)%nat by lia. rewrite Nat.div_add by lia. change (2 / 2)%nat with 1%nat. lia. Qed.
Lemma row_cases : forall m r, (r < order m)%nat -> r = 0%nat \/ (exists k, (k < m)%nat /\ (r = 2 * k + 1 \/ r = 2 * k + 2)%nat) \/ r = (2 * m + 1)%nat.
Proof.
  intros m r Hr. unfold order in Hr. destruct (Nat.eq_dec r 0) as [->|N0]; [left; reflexivity|right]. destruct (Nat.eq_dec r (2 * m + 1)) as [->|NL]; [right; reflexivity|left].
  exists ((r - 1) / 2)%nat. pose proof (Nat.div_mod (r - 1) 2 ltac:(lia)). pose proof (Nat.mod_upper_bound (r - 1) 2 ltac:(lia)). split; lia.
Qed.
Lemma albedo_rqq : forall g, albedo g = rqq g. Proof. intros [(r & r0)|]; reflexivity. Qed.
Lemma mv_sub : forall N a u v i, mv N a (fun j => u j - v j) i = mv N a u i - mv N a v i.
Proof. intros N a u v i. unfold mv. rewrite (total_ext N _ (fun k => a i k * u k + - (1) * (a i k * v k))) by (intros; ring). rewrite total_plus, total_scale. ring. Qed.
Lemma only_zero : forall N a v, nonsingular N a -> (forall r, (r < N)%nat -> mv N a v r = 0) -> forall i, (i < N)%nat -> v i = 0.
Proof.
  intros N a v (p & P1 & P2) Z i Hi. rewrite <- (mv_ident N v i Hi). assert (mv N ident v i = mv N (mmul N p a) v i) as -> by (unfold mv; apply total_ext; intros c Hc; f_equal; unfold mmul; symmetry; apply P2; assumption).
  rewrite <- mv_mul. unfold mv at 1. apply total_zero. intros c Hc. rewrite Z by exact Hc. ring.
Qed.

Section Path.
Variable lu : nat -> mat -> option (vec -> vec).
Variables (n_coef m : nat) (fl : varied) (D : R -> deck) (G : R -> ground) (p : R) (dl : deck_l) (junk : nat -> wave_l).
Hypothesis NC : (1 < n_coef)%nat.
Hypothesis LU : lu_solver (order m) (lu (order m)).
Hypothesis Dep : depends m fl D G p dl.
Hypothesis Mk : marks m fl dl.
Hypothesis Near : around p (fun s => tame (D s) m true (G s)).
Notation d := (D p).
Notation g := (G p).
Notation N := (order m).
Definition none : wave := {| w_nu := 0; w_Xp := 0; w_Xm := 0; w_L := 0; w_Fp := 0; w_Fm := 0 |}.
Definition Ws (s : R) : nat -> wave := match layers (D s) n_coef true (S m) with Answer ws => ws | _ => fun _ => none end.
Definition As (s : R) : mat := match matrix m (G s) (Ws s) with Answer a => a | _ => zmat end.
Definition Rs (s : R) : vec := rhs (D s) true m (G s) (Ws s).
Definition Vs (s : R) : vec := match lu N (As s) with Some f => f (Rs s) | None => zvec end.
Lemma here_tame : tame d m true g. Proof using Near. exact (here _ _ Near). Qed.
Lemma found : around p (fun s => layers (D s) n_coef true (S m) = Answer (Ws s) /\ forall k, (k <= m)%nat -> Ws s k = wav (D s) k).
Proof using NC Near.
  refine (around_imp p _ _ _ Near). intros s T. destruct (layers_are (D s) m (G s) n_coef T NC (S m) (le_n _)) as (ws & E & H). unfold Ws. rewrite E. split; [reflexivity|]. intros k Hk. apply H. lia.
Qed.
Lemma made : forall s, matrix m (G s) (Ws s) = Answer (As s) /\ done m (G s) (Ws s) (S m) (As s).
Proof using. intros s. unfold As. destruct (matrix_done m (G s) (Ws s)) as (a & -> & H). split; [reflexivity|exact H]. Qed.
Lemma regular_s : around p (fun s => nonsingular N (As s)).
Proof using NC Near.
  refine (around_imp p _ _ _ Near). intros s T. destruct (layers_found (D s) m true (G s) T n_coef NC (S m) (le_n _)) as (ws & E & H). assert (Ws s = ws) as EW by (unfold Ws; rewrite E; reflexivity).
  destruct (seen_by (D s) (four_ok _ _ _ _ T)) as (xs & See). apply (matrix_nonsingular (D s) m true (G s) xs (Ws s) (As s) See T); [intros k Hk; rewrite EW; apply H; lia|apply made].
Qed.
Lemma solved : around p (fun s => amplitudes lu (D s) true m (G s) (Ws s) = Answer (Vs s) /\ forall r, (r < N)%nat -> mv N (As s) (Vs s) r = Rs s r).
Proof using NC Near LU.
  refine (around_imp p _ _ _ regular_s). intros s Ns. destruct (LU (As s) Ns) as (f & Ef & Hf). unfold amplitudes. rewrite (proj1 (made s)). cbn [bind]. unfold Vs. rewrite Ef. split; [reflexivity|].
  intros r Hr. apply Hf. exact Hr.
Qed.

Variable dw : nat -> wave_l.
Hypothesis DW : forall k, (k <= m)%nat -> wderiv (fun s => Ws s k) p (dw k).
Notation ws := (Ws p).
Definition grows (Bs : R -> vec) (B' : vec) : Prop := forall j, (j < N)%nat -> derivable_pt_lim (fun s => Bs s j) p (B' j).
Definition up0' (B : vec) (k : nat) : R := B (2 * k)%nat * wl_Xp (dw k) + B (2 * k + 1)%nat * (wl_L (dw k) * w_Xm (ws k) + w_L (ws k) * wl_Xm (dw k)).
Definition dn0' (B : vec) (k : nat) : R := - B (2 * k)%nat * wl_Xm (dw k) - B (2 * k + 1)%nat * (wl_L (dw k) * w_Xp (ws k) + w_L (ws k) * wl_Xp (dw k)).
Definition upL' (B : vec) (k : nat) : R := B (2 * k)%nat * (wl_L (dw k) * w_Xp (ws k) + w_L (ws k) * wl_Xp (dw k)) + B (2 * k + 1)%nat * wl_Xm (dw k).
Definition dnL' (B : vec) (k : nat) : R := - B (2 * k)%nat * (wl_L (dw k) * w_Xm (ws k) + w_L (ws k) * wl_Xm (dw k)) - B (2 * k + 1)%nat * wl_Xp (dw k).
Lemma d_ends : forall Bs B' k, grows Bs B' -> (k <= m)%nat ->
  derivable_pt_lim (fun s => up0 (Ws s) (Bs s) k) p (up0' (Bs p) k + up0 ws B' k) /\ derivable_pt_lim (fun s => dn0 (Ws s) (Bs s) k) p (dn0' (Bs p) k + dn0 ws B' k) /\
  derivable_pt_lim (fun s => upL (Ws s) (Bs s) k) p (upL' (Bs p) k + upL ws B' k) /\ derivable_pt_lim (fun s => dnL (Ws s) (Bs s) k) p (dnL' (Bs p) k + dnL ws B' k).
Proof using DW NC.
  intros Bs B' k Gr Hk. destruct (DW k Hk) as (_ & D1 & D2 & D3 & _). assert (derivable_pt_lim (fun s => Bs s (2 * k)%nat) p (B' (2 * k)%nat)) as E1 by (apply Gr; unfold order; lia).
  assert (derivable_pt_lim (fun s => Bs s (2 * k + 1)%nat) p (B' (2 * k + 1)%nat)) as E2 by (apply Gr; unfold order; lia).
  unfold up0, dn0, upL, dnL. refine (conj _ (conj _ (conj _ _))); (eapply dl_eq; [ddx|]); unfold up0', dn0', upL', dnL'; cbv beta; ring.
Qed.
Definition r' : R := match g with None => 0 | Some _ => when (v_layer fl (S m)) (l_rqq dl) end.
Definition r0' : R := match g with None => 0 | Some _ => when (v_layer fl (S m)) (l_rq0 dl) end.
Lemma ground_same : forall s, (G s = None <-> g = None). Proof using Dep. apply Dep. Qed.
Lemma d_albedo : derivable_pt_lim (fun s => albedo (G s)) p r'.
Proof using Dep.
  pose proof ground_same as Sa. destruct Dep as (_ & _ & _ & _ & H). unfold r'. apply (eq_around (fun s => rqq (G s))); [apply around_true; intros; symmetry; apply albedo_rqq|].
  destruct g as [(r & r0)|] eqn:Eg; [apply H; discriminate|]. apply (eq_around (fun _ => 0)); [|apply dl_const]. apply around_true. intros s. rewrite (proj2 (Sa s) eq_refl). reflexivity.
Qed.
Definition glint' : R := match g with None => 0 | Some (_, r0) => t_F0 d * t_mu0 d / PI * (when (v_beam fl (S m)) (l_btran dl (S m)) * r0 + t_btran d (S m) * r0') end.
Lemma d_glint : derivable_pt_lim (fun s => glint (D s) true m (G s)) p glint'.
Proof using Dep.
  pose proof ground_same as Sa. destruct Dep as (S1 & _ & B & _ & H). unfold glint', r0'. destruct g as [(r & r0)|] eqn:Eg.
  - destruct (H ltac:(discriminate)) as (_ & H2). specialize (B (S m) (le_n _)).
    apply (eq_around (fun s => t_F0 d * t_mu0 d / PI * (t_btran (D s) (S m) * rq0 (G s)))).
    + apply around_true. intros s. unfold glint, rq0. destruct (S1 s) as (_ & _ & -> & ->). destruct (G s) as [(a & b)|] eqn:Es; [ring|].
      discriminate (proj1 (Sa s) Es).
    + eapply dl_eq; [ddx|]. cbv beta. rewrite Eg. cbn [rq0]. ring.
  - apply (eq_around (fun _ => 0)); [|apply dl_const]. apply around_true. intros s. unfold glint. rewrite (proj2 (Sa s) eq_refl). reflexivity.
Qed.
(** The derivative of the rows of the matrix, and of the right hand side *)
Definition rows_d (B : vec) (r : nat) : R :=
  if (r =? 0)%nat then dn0' B 0 else if (r =? 2 * m + 1)%nat then upL' B m - (r' * dnL ws B m + albedo g * dnL' B m)
  else if Nat.odd r then upL' B (r / 2) - up0' B (S (r / 2)) else dnL' B (r / 2 - 1) - dn0' B (S (r / 2 - 1)).
Definition at' (k : nat) : R := when (v_beam fl k) (l_atran dl k).
Definition Fp1' (k : nat) : R := wl_Fp (dw k) * t_atran d k + w_Fp (ws k) * at' k.
Definition Fm1' (k : nat) : R := wl_Fm (dw k) * t_atran d k + w_Fm (ws k) * at' k.
Definition right_d (r : nat) : R :=
  if (r =? 0)%nat then - wl_Fm (dw 0%nat) else if (r =? 2 * m + 1)%nat then glint' + (r' * Fm1 d ws m + albedo g * Fm1' m) - Fp1' m
  else if Nat.odd r then wl_Fp (dw (S (r / 2))) - Fp1' (r / 2) else wl_Fm (dw (S (r / 2 - 1))) - Fm1' (r / 2 - 1).
Lemma rows_move : forall Bs B' r, grows Bs B' -> (r < N)%nat -> derivable_pt_lim (fun s => mv N (As s) (Bs s) r) p (rows_d (Bs p) r + mv N (As p) B' r).
Proof using DW Dep NC.
  intros Bs B' r Gr Hr. unfold rows_d. destruct (row_cases m r Hr) as [-> |[(k & Hk & [-> | ->])| ->]].
  - cbn [Nat.eqb]. rewrite (row_top m g ws _ _ (proj2 (made p))). apply (eq_around (fun s => dn0 (Ws s) (Bs s) 0)); [apply around_true; intros s; rewrite (row_top m (G s) _ _ _ (proj2 (made s))); reflexivity|]. apply (d_ends Bs B' 0 Gr). lia.
  - destruct (odd_row k) as (-> & -> & ->). destruct (Nat.eqb_spec (2 * k + 1) (2 * m + 1)); [lia|]. rewrite (row_up m g ws _ _ k (proj2 (made p)) Hk).
    apply (eq_around (fun s => upL (Ws s) (Bs s) k - up0 (Ws s) (Bs s) (S k))); [apply around_true; intros s; rewrite (row_up m (G s) _ _ _ k (proj2 (made s)) Hk); reflexivity|].
    destruct (d_ends Bs B' k Gr ltac:(lia)) as (_ & _ & E1 & _). destruct (d_ends Bs B' (S k) Gr ltac:(lia)) as (E2 & _). eapply dl_eq; [ddx|]. ring.
  - destruct (even_row k) as (-> & -> & ->). destruct (Nat.eqb_spec (2 * k + 2) (2 * m + 1)); [lia|]. rewrite (row_down m g ws _ _ k (proj2 (made p)) Hk).
    apply (eq_around (fun s => dnL (Ws s) (Bs s) k - dn0 (Ws s) (Bs s) (S k))); [apply around_true; intros s; rewrite (row_down m (G s) _ _ _ k (proj2 (made s)) Hk); reflexivity|].
    destruct (d_ends Bs B' k Gr ltac:(lia)) as (_ & _ & _ & E1). destruct (d_ends Bs B' (S k) Gr ltac:(lia)) as (_ & E2 & _). eapply dl_eq; [ddx|]. ring.
  - rewrite (proj1 (odd_row m)), Nat.eqb_refl, (row_last m g ws _ _ (proj2 (made p))).
    apply (eq_around (fun s => upL (Ws s) (Bs s) m - albedo (G s) * dnL (Ws s) (Bs s) m)); [apply around_true; intros s; rewrite (row_last m (G s) _ _ _ (proj2 (made s))); reflexivity|].
    destruct (d_ends Bs B' m Gr (le_n m)) as (_ & _ & E1 & E2). pose proof d_albedo as E3. eapply dl_eq; [ddx|]. cbv beta. ring.
Qed.
Lemma d_atran : forall k, (k <= m)%nat -> derivable_pt_lim (fun s => t_atran (D s) k) p (at' k).
Proof using Dep. intros k Hk. destruct Dep as (_ & H & _). apply (H k Hk). Qed.
Lemma right_moves : forall r, (r < N)%nat -> derivable_pt_lim (fun s => Rs s r) p (right_d r).
Proof using DW Dep NC.
  intros r Hr. assert (forall s, Rs s 0%nat = - w_Fm (Ws s 0%nat) /\ (forall k, (k < m)%nat -> Rs s (2 * k + 1)%nat = w_Fp (Ws s (S k)) - Fp1 (D s) (Ws s) k /\ Rs s (2 * k + 2)%nat = w_Fm (Ws s (S k)) - Fm1 (D s) (Ws s) k) /\
    Rs s (2 * m + 1)%nat = glint (D s) true m (G s) + albedo (G s) * Fm1 (D s) (Ws s) m - Fp1 (D s) (Ws s) m) as Ro by (intros s; apply rhs_rows; discriminate).
  unfold right_d. destruct (row_cases m r Hr) as [-> |[(k & Hk & [-> | ->])| ->]].
  - cbn [Nat.eqb]. apply (eq_around (fun s => - w_Fm (Ws s 0%nat))); [apply around_true; intros s; symmetry; apply Ro|]. destruct (DW 0%nat ltac:(lia)) as (_ & _ & _ & _ & _ & E). ddx.
  - destruct (odd_row k) as (-> & -> & ->). destruct (Nat.eqb_spec (2 * k + 1) (2 * m + 1)); [lia|].
    apply (eq_around (fun s => w_Fp (Ws s (S k)) - Fp1 (D s) (Ws s) k)); [apply around_true; intros s; symmetry; apply (proj1 (proj2 (Ro s)) k Hk)|].
    destruct (DW k ltac:(lia)) as (_ & _ & _ & _ & E1 & _). destruct (DW (S k) ltac:(lia)) as (_ & _ & _ & _ & E2 & _). pose proof (d_atran k ltac:(lia)) as E3. unfold Fp1. ddx.
  - destruct (even_row k) as (-> & -> & ->). destruct (Nat.eqb_spec (2 * k + 2) (2 * m + 1)); [lia|].
    apply (eq_around (fun s => w_Fm (Ws s (S k)) - Fm1 (D s) (Ws s) k)); [apply around_true; intros s; symmetry; apply (proj1 (proj2 (Ro s)) k Hk)|].
    destruct (DW k ltac:(lia)) as (_ & _ & _ & _ & _ & E1). destruct (DW (S k) ltac:(lia)) as (_ & _ & _ & _ & _ & E2). pose proof (d_atran k ltac:(lia)) as E3. unfold Fm1. ddx.
  - rewrite (proj1 (odd_row m)), Nat.eqb_refl. apply (eq_around (fun s => glint (D s) true m (G s) + albedo (G s) * Fm1 (D s) (Ws s) m - Fp1 (D s) (Ws s) m)); [apply around_true; intros s; symmetry; apply Ro|].
    destruct (DW m (le_n m)) as (_ & _ & _ & _ & E1 & E2). pose proof (d_atran m (le_n m)) as E3. pose proof d_albedo as E4. pose proof d_glint as E5. unfold Fm1, Fp1. ddx.
Qed.
Definition unit_at (c : nat) : vec := fun j => if Nat.eqb c j then 1 else 0.
Lemma entry_mv : forall a r c, (c < N)%nat -> mv N a (unit_at c) r = a r c.
Proof.
  intros a r c Hc. unfold mv. rewrite (total_ext _ _ (fun k => if Nat.eqb c k then a r k else 0)); [apply (total_pick N c (fun k => a r k) Hc)|]. intros k _. unfold unit_at. destruct (Nat.eqb c k); ring.
Qed.
Lemma amplitudes_move : exists V', grows Vs V'.
Proof using DW Dep NC Near LU.
  assert (0 < N)%nat as PN by (unfold order; lia).
  assert (mderiv N As p (fun r c => rows_d (unit_at c) r + mv N (As p) zvec r)) as DM.
  { intros r c Hr Hc. apply (eq_around (fun s => mv N (As s) (unit_at c) r)); [apply around_true; intros; apply entry_mv; exact Hc|]. apply (rows_move (fun _ => unit_at c) zvec); [intros j _; apply dl_const|exact Hr]. }
  assert (vderiv N Rs p right_d) as DR by (intros r Hr; apply right_moves; exact Hr).
  pose proof (vd_csolve N (gauss_rows N) As Rs p _ _ _ (gauss_solver N) PN (here _ _ regular_s) DM DR (fun i _ => eq_refl)) as DC.
  eexists. intros j Hj. apply (eq_around (fun s => RadianceModel.csolve (gauss_rows N) (As s) (Rs s) j)); [|exact (DC j Hj)].
  refine (around_imp p _ _ _ (around_and p _ _ regular_s solved)). intros s (Ns & _ & So). assert (RadianceModel.csolve (gauss_rows N) (As s) (Rs s) j - Vs s j = 0) as Q; [|lra].
  apply (only_zero N (As s) (fun j => RadianceModel.csolve (gauss_rows N) (As s) (Rs s) j - Vs s j) Ns); [|exact Hj]. intros r Hr. rewrite mv_sub, So by exact Hr.
  rewrite (csolve_solves N (gauss_rows N) (As s) (Rs s) r PN (gauss_solver N) Ns Hr). ring.
Qed.
Lemma amplitudes_d : forall y, (forall r, (r < N)%nat -> mv N (As p) y r = right_d r - rows_d (Vs p) r) -> grows Vs y.
Proof using DW Dep NC Near LU.
  intros y Hy. destruct amplitudes_move as (V' & Gr). intros j Hj. apply (dl_eq _ _ (V' j)); [apply Gr; exact Hj|]. assert (V' j - y j = 0) as Q; [|lra].
  apply (only_zero N (As p) (fun j => V' j - y j) (here _ _ regular_s)); [|exact Hj]. intros r Hr. rewrite mv_sub, Hy by exact Hr.
  assert (rows_d (Vs p) r + mv N (As p) V' r = right_d r) as E; [|lra]. eapply uniqueness_limite; [apply (rows_move Vs V' r Gr Hr)|]. eapply eq_around; [|apply (right_moves r Hr)].
  refine (around_imp p _ _ _ solved). intros s (_ & H). symmetry. apply H. exact Hr.
Qed.
End Path.
