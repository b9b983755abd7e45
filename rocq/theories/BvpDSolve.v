(** The coefficients of the boundary value solver vary with the solution of the differentiated system. *)
From Coq Require Import Reals Bool Arith ZArith Lia Lra List.
From Verif Require Import Base DeltaMSpec DeltaMProofs BeamProofs AddingModel AddingSpec AddingMat AddingDeriv AddingCalls RadianceModel RadianceProofs SingleProofs
  EigModel EigSpec EigMat EigCore EigProofs EigDModel EigDSpec EigDProofs BvpModel BvpSpec BvpProofs BvpDModel BvpDProofs BvpDPath GaussProofs.
Open Scope R_scope.

Section Move.
Variable n : nat.
Hypothesis Pos : (0 < n)%nat.
Variable m : nat.
Variables (solar thermal : bool).
Variables (W : R -> nat -> waves) (p : R).
Variables ws dw : nat -> waves.
Hypothesis Here : W p = ws.
Hypothesis DW : forall k, (k <= m)%nat -> wderiv n solar thermal (fun s => W s k) p (dw k).
Notation K := (2 * S m)%nat.
Notation pt := (part n).
Definition grows (Bs : R -> vec) (B' : vec) : Prop := forall j, (j < K * n)%nat -> derivable_pt_lim (fun s => Bs s j) p (B' j).
Lemma inside_K : forall q i, (q < K)%nat -> (i < n)%nat -> (q * n + i < K * n)%nat.
Proof using Pos. intros q i Hq Hi. apply Nat.lt_le_trans with (S q * n)%nat; [cbn [Nat.mul]; lia|]. apply Nat.mul_le_mono_r. lia. Qed.
Lemma d_part : forall Bs B' q, grows Bs B' -> (q < K)%nat -> vderiv n (fun s => pt (Bs s) q) p (pt B' q).
Proof using Pos. intros Bs B' q G Hq i Hi. apply G. apply inside_K; assumption. Qed.
Lemma d_lam : forall k, (k <= m)%nat -> vderiv n (fun s => lam (W s k)) p (lam_l (ws k) (dw k)).
Proof using Here DW.
  intros k Hk i Hi. destruct (DW k Hk) as (DL & DN & _). unfold lam, lam_l. rewrite <- Here.
  eapply dl_eq; [apply (dl_exp (fun s => - b_nu (W s k) i * b_ltau (W s k))); apply (dl_mult (fun s => - b_nu (W s k) i) (fun s => b_ltau (W s k))); [apply derivable_pt_lim_opp; apply DN; exact Hi|exact DL]|].
  cbv beta. unfold lam. ring.
Qed.
Lemma d_weighted : forall Bs B' k q, grows Bs B' -> (k <= m)%nat -> (q < K)%nat -> vderiv n (fun s j => lam (W s k) j * pt (Bs s) q j) p (fun j => lam_l (ws k) (dw k) j * pt (Bs p) q j + lam (ws k) j * pt B' q j).
Proof using Pos Here DW.
  intros Bs B' k q G Hk Hq i Hi. eapply dl_eq; [apply (dl_mult (fun s => lam (W s k) i) (fun s => pt (Bs s) q i)); [apply (d_lam k Hk i Hi)|apply (d_part _ _ q G Hq i Hi)]|cbv beta; rewrite Here; reflexivity].
Qed.
Lemma d_Xp_mv : forall k v v', (k <= m)%nat -> vderiv n v p v' -> vderiv n (fun s => mv n (b_Xp (W s k)) (v s)) p (fun i => mv n (b_Xp (dw k)) (v p) i + mv n (b_Xp (ws k)) v' i).
Proof using Here DW. intros k v v' Hk V. rewrite <- Here. destruct (DW k Hk) as (_ & _ & D & _). exact (vderiv_mv n _ _ p _ _ D V). Qed.
Lemma d_Xm_mv : forall k v v', (k <= m)%nat -> vderiv n v p v' -> vderiv n (fun s => mv n (b_Xm (W s k)) (v s)) p (fun i => mv n (b_Xm (dw k)) (v p) i + mv n (b_Xm (ws k)) v' i).
Proof using Here DW. intros k v v' Hk V. rewrite <- Here. destruct (DW k Hk) as (_ & _ & _ & D & _). exact (vderiv_mv n _ _ p _ _ D V). Qed.
Section Vec.
Variables (Bs : R -> vec) (B' : vec) (k : nat).
Hypothesis G : grows Bs B'.
Hypothesis Hk : (k <= m)%nat.
Lemma d_Up0 : vderiv n (fun s => Up0 n (W s) (Bs s) k) p (fun i => Up0' n ws dw (Bs p) k i + Up0 n ws B' k i).
Proof using Pos Here DW G Hk.
  intros i Hi. unfold Up0. eapply dl_eq; [apply dl_plus; [apply (d_Xp_mv k (fun s => pt (Bs s) (2 * k)) _ Hk (d_part _ _ (2 * k) G ltac:(lia)) i Hi)|
    apply (d_Xm_mv k (fun s j => lam (W s k) j * pt (Bs s) (2 * k + 1) j) _ Hk (d_weighted _ _ k (2 * k + 1) G Hk ltac:(lia)) i Hi)]|].
  cbv beta. rewrite Here, mv_plus. unfold Up0'. ring.
Qed.
Lemma d_Dn0 : vderiv n (fun s => Dn0 n (W s) (Bs s) k) p (fun i => Dn0' n ws dw (Bs p) k i + Dn0 n ws B' k i).
Proof using Pos Here DW G Hk.
  intros i Hi. unfold Dn0. eapply dl_eq; [apply dl_minus; [apply derivable_pt_lim_opp; apply (d_Xm_mv k (fun s => pt (Bs s) (2 * k)) _ Hk (d_part _ _ (2 * k) G ltac:(lia)) i Hi)|
    apply (d_Xp_mv k (fun s j => lam (W s k) j * pt (Bs s) (2 * k + 1) j) _ Hk (d_weighted _ _ k (2 * k + 1) G Hk ltac:(lia)) i Hi)]|].
  cbv beta. rewrite Here, mv_plus. unfold Dn0'. ring.
Qed.
Lemma d_UpL : vderiv n (fun s => UpL n (W s) (Bs s) k) p (fun i => UpL' n ws dw (Bs p) k i + UpL n ws B' k i).
Proof using Pos Here DW G Hk.
  intros i Hi. unfold UpL. eapply dl_eq; [apply dl_plus; [apply (d_Xp_mv k (fun s j => lam (W s k) j * pt (Bs s) (2 * k) j) _ Hk (d_weighted _ _ k (2 * k) G Hk ltac:(lia)) i Hi)|
    apply (d_Xm_mv k (fun s => pt (Bs s) (2 * k + 1)) _ Hk (d_part _ _ (2 * k + 1) G ltac:(lia)) i Hi)]|].
  cbv beta. rewrite Here, mv_plus. unfold UpL'. ring.
Qed.
Lemma d_DnL : vderiv n (fun s => DnL n (W s) (Bs s) k) p (fun i => DnL' n ws dw (Bs p) k i + DnL n ws B' k i).
Proof using Pos Here DW G Hk.
  intros i Hi. unfold DnL. eapply dl_eq; [apply dl_minus; [apply derivable_pt_lim_opp; apply (d_Xm_mv k (fun s j => lam (W s k) j * pt (Bs s) (2 * k) j) _ Hk (d_weighted _ _ k (2 * k) G Hk ltac:(lia)) i Hi)|
    apply (d_Xp_mv k (fun s => pt (Bs s) (2 * k + 1)) _ Hk (d_part _ _ (2 * k + 1) G ltac:(lia)) i Hi)]|].
  cbv beta. rewrite Here, mv_plus. unfold DnL'. ring.
Qed.
End Vec.
Lemma d_if : forall (b : bool) (f : R -> R) f', (b = true -> derivable_pt_lim f p f') -> derivable_pt_lim (fun s => if b then f s else 0) p (when b f').
Proof. intros b f f' H. destruct b; [exact (H eq_refl)|apply dl_const]. Qed.
Section Sources.
Variable k : nat.
Hypothesis Hk : (k <= m)%nat.
Lemma d_P0p : vderiv n (fun s => P0p (W s) solar thermal k) p (P0p' dw solar thermal k).
Proof using DW Hk.
  intros i Hi. destruct (DW k Hk) as (_ & _ & _ & _ & So & Th). unfold P0p, P0p'. apply dl_plus; apply d_if; intros E; [destruct (So E) as (_ & _ & A & _)|destruct (Th E) as (A & _)]; exact (A i Hi).
Qed.
Lemma d_P0m : vderiv n (fun s => P0m (W s) solar thermal k) p (P0m' dw solar thermal k).
Proof using DW Hk.
  intros i Hi. destruct (DW k Hk) as (_ & _ & _ & _ & So & Th). unfold P0m, P0m'. apply dl_plus; apply d_if; intros E; [destruct (So E) as (_ & _ & _ & A)|destruct (Th E) as (_ & A & _)]; exact (A i Hi).
Qed.
Lemma d_P1p : vderiv n (fun s => P1p (W s) solar thermal k) p (P1p' ws dw solar thermal k).
Proof using DW Hk Here.
  intros i Hi. destruct (DW k Hk) as (_ & _ & _ & _ & So & Th). unfold P1p, P1p'. apply dl_plus; apply d_if; intros E; [destruct (So E) as (T & _ & A & _)|destruct (Th E) as (_ & _ & A & _)]; [|exact (A i Hi)].
  rewrite <- Here. apply (dl_mult (fun s => b_Fp (W s k) i) (fun s => b_atran (W s k))); [exact (A i Hi)|exact T].
Qed.
Lemma d_P1m : vderiv n (fun s => P1m (W s) solar thermal k) p (P1m' ws dw solar thermal k).
Proof using DW Hk Here.
  intros i Hi. destruct (DW k Hk) as (_ & _ & _ & _ & So & Th). unfold P1m, P1m'. apply dl_plus; apply d_if; intros E; [destruct (So E) as (T & _ & _ & A)|destruct (Th E) as (_ & _ & _ & A)]; [|exact (A i Hi)].
  rewrite <- Here. apply (dl_mult (fun s => b_Fm (W s k) i) (fun s => b_atran (W s k))); [exact (A i Hi)|exact T].
Qed.
End Sources.

Variables (SF : R -> option mat) (surf : option mat) (R' : mat).
Hypothesis HereS : SF p = surf.
Hypothesis DS : mderiv n (fun s => reflector (SF s)) p R'.
Variables (T Bt : R -> vec) (t' b' : vec).
Hypothesis DT : vderiv n T p t'.
Hypothesis DB : vderiv n Bt p b'.
Notation Rsf := (reflector surf).
Lemma d_surface : forall (v : R -> vec) v', vderiv n v p v' -> vderiv n (fun s => mv n (reflector (SF s)) (v s)) p (fun i => mv n R' (v p) i + mv n Rsf v' i).
Proof using HereS DS. intros v v' V. rewrite <- HereS. exact (vderiv_mv n _ _ p _ _ DS V). Qed.
(** The derivative of the rows of the matrix, and of the right hand side *)
Definition rows_d (B : vec) (q i : nat) : R :=
  if (q =? 0)%nat then Dn0' n ws dw B 0 i else if (q =? 2 * m + 1)%nat then UpL' n ws dw B m i - (mv n R' (DnL n ws B m) i + mv n Rsf (DnL' n ws dw B m) i)
  else if Nat.odd q then UpL' n ws dw B (q / 2) i - Up0' n ws dw B (S (q / 2)) i else DnL' n ws dw B (q / 2 - 1) i - Dn0' n ws dw B (S (q / 2 - 1)) i.
Definition right_d (q i : nat) : R :=
  if (q =? 0)%nat then t' i - P0m' dw solar thermal 0 i
  else if (q =? 2 * m + 1)%nat then b' i - P1p' ws dw solar thermal m i + (mv n R' (P1m ws solar thermal m) i + mv n Rsf (P1m' ws dw solar thermal m) i)
  else if Nat.odd q then P0p' dw solar thermal (S (q / 2)) i - P1p' ws dw solar thermal (q / 2) i else P0m' dw solar thermal (S (q / 2 - 1)) i - P1m' ws dw solar thermal (q / 2 - 1) i.
Lemma odd_row : forall k, (2 * k + 1 =? 0)%nat = false /\ Nat.odd (2 * k + 1) = true /\ ((2 * k + 1) / 2)%nat = k.
Proof. intros k. refine (conj _ (conj _ _)); [apply Nat.eqb_neq; lia|rewrite Nat.add_comm, Nat.odd_add_mul_2; reflexivity|]. replace (2 * k + 1)%nat with (1 + k * 2)%nat by lia. rewrite Nat.div_add by lia. reflexivity. Qed.
Lemma even_row : forall k, (2 * k + 2 =? 0)%nat = false /\ Nat.odd (2 * k + 2) = false /\ ((2 * k + 2) / 2 - 1)%nat = k.
Proof. intros k. refine (conj _ (conj _ _)); [apply Nat.eqb_neq; lia|rewrite Nat.add_comm, Nat.odd_add_mul_2; reflexivity|]. replace (2 * k + 2)%nat with (2 + k * 2)%nat by lia. rewrite Nat.div_add by lia. change (2 / 2)%nat with 1%nat. lia. Qed.
Lemma rows_move : forall Bs B' q i, grows Bs B' -> (q < K)%nat -> (i < n)%nat ->
  derivable_pt_lim (fun s => rows n m (W s) (SF s) (Bs s) q i) p (rows_d (Bs p) q i + rows n m ws surf B' q i).
Proof using Pos Here DW HereS DS.
  intros Bs B' q i G Hq Hi. unfold rows_d. destruct (row_cases n Pos m q Hq) as [ -> |[(k & Hk & [ -> | -> ])| -> ]].
  - rewrite Nat.eqb_refl, row_first by exact Pos. apply (eq_around (fun s => Dn0 n (W s) (Bs s) 0 i)); [apply around_true; intros; rewrite row_first by exact Pos; reflexivity|].
    exact (d_Dn0 Bs B' 0 G ltac:(lia) i Hi).
  - destruct (odd_row k) as (-> & -> & ->). rewrite (eqb_no n Pos (2 * k + 1) (2 * m + 1)) by lia. rewrite row_up by assumption.
    apply (eq_around (fun s => UpL n (W s) (Bs s) k i - Up0 n (W s) (Bs s) (S k) i)); [apply around_true; intros; rewrite row_up by assumption; reflexivity|].
    eapply dl_eq; [apply dl_minus; [apply (d_UpL Bs B' k G ltac:(lia) i Hi)|apply (d_Up0 Bs B' (S k) G ltac:(lia) i Hi)]|]. cbv beta. ring.
  - destruct (even_row k) as (-> & -> & ->). rewrite (eqb_no n Pos (2 * k + 2) (2 * m + 1)) by lia. rewrite row_dn by assumption.
    apply (eq_around (fun s => DnL n (W s) (Bs s) k i - Dn0 n (W s) (Bs s) (S k) i)); [apply around_true; intros; rewrite row_dn by assumption; reflexivity|].
    eapply dl_eq; [apply dl_minus; [apply (d_DnL Bs B' k G ltac:(lia) i Hi)|apply (d_Dn0 Bs B' (S k) G ltac:(lia) i Hi)]|]. cbv beta. ring.
  - rewrite (proj1 (odd_row m)), Nat.eqb_refl, row_last by exact Pos.
    apply (eq_around (fun s => UpL n (W s) (Bs s) m i - mv n (reflector (SF s)) (DnL n (W s) (Bs s) m) i)); [apply around_true; intros; rewrite row_last by assumption; reflexivity|].
    eapply dl_eq; [apply dl_minus; [apply (d_UpL Bs B' m G (le_n m) i Hi)|apply (d_surface _ _ (d_DnL Bs B' m G (le_n m)) i Hi)]|]. cbv beta. rewrite Here, mv_plus. ring.
Qed.
Lemma right_moves : forall q i, (q < K)%nat -> (i < n)%nat ->
  derivable_pt_lim (fun s => right n m (W s) (SF s) solar thermal (T s) (Bt s) q i) p (right_d q i).
Proof using Pos Here DW HereS DS DT DB.
  intros q i Hq Hi. unfold right_d. destruct (row_cases n Pos m q Hq) as [ -> |[(k & Hk & [ -> | -> ])| -> ]].
  - rewrite Nat.eqb_refl. apply (eq_around (fun s => T s i - P0m (W s) solar thermal 0 i)); [apply around_true; intros; rewrite right_first by assumption; reflexivity|].
    apply dl_minus; [apply DT, Hi|exact (d_P0m 0 ltac:(lia) i Hi)].
  - destruct (odd_row k) as (-> & -> & ->). rewrite (eqb_no n Pos (2 * k + 1) (2 * m + 1)) by lia.
    apply (eq_around (fun s => P0p (W s) solar thermal (S k) i - P1p (W s) solar thermal k i)); [apply around_true; intros; rewrite right_up by assumption; reflexivity|].
    apply dl_minus; [exact (d_P0p (S k) ltac:(lia) i Hi)|exact (d_P1p k ltac:(lia) i Hi)].
  - destruct (even_row k) as (-> & -> & ->). rewrite (eqb_no n Pos (2 * k + 2) (2 * m + 1)) by lia.
    apply (eq_around (fun s => P0m (W s) solar thermal (S k) i - P1m (W s) solar thermal k i)); [apply around_true; intros; rewrite right_dn by assumption; reflexivity|].
    apply dl_minus; [exact (d_P0m (S k) ltac:(lia) i Hi)|exact (d_P1m k ltac:(lia) i Hi)].
  - rewrite (proj1 (odd_row m)), Nat.eqb_refl.
    apply (eq_around (fun s => Bt s i - P1p (W s) solar thermal m i + mv n (reflector (SF s)) (P1m (W s) solar thermal m) i)); [apply around_true; intros; rewrite right_last by assumption; reflexivity|].
    eapply dl_eq; [apply dl_plus; [apply dl_minus; [apply DB, Hi|apply (d_P1p m (le_n m) i Hi)]|apply (d_surface _ _ (d_P1m m (le_n m)) i Hi)]|]. cbv beta. rewrite Here. reflexivity.
Qed.
(** The matrix, entry by entry *)
Definition unit_at (c : nat) : vec := fun j => if Nat.eqb c j then 1 else 0.
Definition whole (ws : nat -> waves) (surf : option mat) : mat := fun r c => rows n m ws surf (unit_at c) (r / n) (r mod n).
Lemma index_of : forall q i, (i < n)%nat -> ((q * n + i) / n)%nat = q /\ ((q * n + i) mod n)%nat = i.
Proof using Pos.
  intros q i Hi. rewrite (Nat.add_comm (q * n) i), Nat.div_add, Nat.mod_add by lia. rewrite (Nat.div_small i n Hi), (Nat.mod_small i n Hi). split; reflexivity.
Qed.
Lemma whole_mv : forall ws surf B q i, (q < K)%nat -> (i < n)%nat -> mv (n_comp n m) (whole ws surf) B (q * n + i)%nat = rows n m ws surf B q i.
Proof using Pos.
  intros us sf B q i Hq Hi. destruct (assembled n Pos m us sf) as (a & _ & Ha). rewrite <- Ha by assumption. unfold mv. apply total_ext. intros c Hc. f_equal.
  unfold whole. destruct (index_of q i Hi) as (-> & ->). rewrite <- Ha by assumption. unfold mv. rewrite (total_ext _ _ (fun k => if Nat.eqb c k then unband (n_diags n) (n_diags n) a (q * n + i)%nat k else 0)).
  - apply (total_pick (n_comp n m) c (fun k => unband (n_diags n) (n_diags n) a (q * n + i)%nat k) Hc).
  - intros k _. unfold unit_at. destruct (Nat.eqb c k); ring.
Qed.
Hypothesis Inj : around p (fun s => forall B, (forall q i, (q < K)%nat -> (i < n)%nat -> rows n m (W s) (SF s) B q i = 0) -> forall q i, (q < K)%nat -> (i < n)%nat -> B (q * n + i)%nat = 0).
Lemma whole_nonsingular : around p (fun s => nonsingular (n_comp n m) (whole (W s) (SF s))).
Proof using Pos Inj.
  refine (around_imp p _ _ _ Inj). intros s H. apply injective_nonsingular. intros B Z r Hr. rewrite n_comp_is in Hr by exact Pos.
  destruct (block_ex n K r Pos Hr) as (q & i & Hq & Hi & ->). apply H; try assumption. intros q' i' Hq' Hi'. rewrite <- whole_mv by assumption. apply Z.
  rewrite n_comp_is by exact Pos. apply inside_K; assumption.
Qed.
(** A solution exists for each atmosphere of the path; it can be differentiated, and it passes through any solution that is given for [p]. *)
Lemma solutions : forall B0, (forall q i, (q < K)%nat -> (i < n)%nat -> rows n m ws surf B0 q i = right n m ws surf solar thermal (T p) (Bt p) q i) ->
  exists Bs B', Bs p = B0 /\ grows Bs B' /\
    around p (fun s => forall q i, (q < K)%nat -> (i < n)%nat -> rows n m (W s) (SF s) (Bs s) q i = right n m (W s) (SF s) solar thermal (T s) (Bt s) q i).
Proof using Pos Here DW HereS DS DT DB Inj.
  intros B0 H0. pose proof whole_nonsingular as NS. set (N := n_comp n m).
  assert (N = (K * n)%nat) as EN by (apply n_comp_is; exact Pos).
  assert (0 < N)%nat as PN by (rewrite EN; apply Nat.mul_pos_pos; lia).
  set (r := fun s => rhs n m (W s) (SF s) solar thermal (T s) (Bt s)).
  set (C := fun s => csolve (gauss_rows N) (whole (W s) (SF s)) (r s)).
  assert (around p (fun s => forall q i, (q < K)%nat -> (i < n)%nat -> rows n m (W s) (SF s) (C s) q i = right n m (W s) (SF s) solar thermal (T s) (Bt s) q i)) as Sol.
  { refine (around_imp p _ _ _ NS). intros s Ns q i Hq Hi. rewrite <- whole_mv by assumption.
    change (right n m (W s) (SF s) solar thermal (T s) (Bt s) q i) with (r s (q * n + i)%nat). unfold C.
    apply (csolve_solves N (gauss_rows N)); [exact PN|apply gauss_solver|exact Ns|]. rewrite EN. apply inside_K; assumption. }
  assert (forall j, (j < N)%nat -> C p j = B0 j) as CB.
  { intros j Hj. assert (C p j - B0 j = 0) as Q; [|lra]. rewrite EN in Hj. destruct (block_ex n K j Pos Hj) as (q & i & Hq & Hi & ->).
    apply (here _ _ Inj (fun j => C p j - B0 j)); try assumption. intros q' i' Hq' Hi'. rewrite <- whole_mv by assumption. rewrite mv_minus, !whole_mv by assumption.
    rewrite (here _ _ Sol) by assumption. rewrite Here, HereS, H0 by assumption. ring. }
  assert (mderiv N (fun s => whole (W s) (SF s)) p (fun r c => rows_d (unit_at c) (r / n) (r mod n) + rows n m ws surf zvec (r / n) (r mod n))) as DM.
  { intros a c Ha Hc. unfold whole. rewrite EN in Ha. apply (rows_move (fun _ => unit_at c) zvec).
    - intros j _. apply dl_const.
    - apply Nat.div_lt_upper_bound; lia.
    - apply Nat.mod_upper_bound. lia. }
  assert (vderiv N r p (fun r => right_d (r / n) (r mod n))) as DR.
  { intros a Ha. rewrite EN in Ha. destruct (block_ex n K a Pos Ha) as (q & i & Hq & Hi & ->). destruct (index_of q i Hi) as (-> & ->). exact (right_moves q i Hq Hi). }
  pose proof (vd_csolve N (gauss_rows N) _ _ p _ _ _ (gauss_solver N) PN (here _ _ NS) DM DR (fun i _ => eq_refl)) as DC.
  exists (fun s => if Req_EM_T s p then B0 else C s). eexists. refine (conj _ (conj _ _)).
  - destruct (Req_EM_T p p) as [_|NE]; [reflexivity|contradiction].
  - intros j Hj. rewrite <- EN in Hj. apply (eq_around (fun s => C s j)); [|exact (DC j Hj)]. apply around_true. intros s. destruct (Req_EM_T s p) as [->|_]; [apply CB, Hj|reflexivity].
  - refine (around_imp p _ _ _ Sol). intros s H q i Hq Hi. destruct (Req_EM_T s p) as [->|_]; [rewrite Here, HereS; apply H0; assumption|apply H; assumption].
Qed.
(** Its derivative solves the differentiated system. *)
Lemma solutions_d : forall Bs B', grows Bs B' ->
  around p (fun s => forall q i, (q < K)%nat -> (i < n)%nat -> rows n m (W s) (SF s) (Bs s) q i = right n m (W s) (SF s) solar thermal (T s) (Bt s) q i) ->
  forall Bl, (forall q i, (q < K)%nat -> (i < n)%nat -> rows n m ws surf Bl q i = right_d q i - rows_d (Bs p) q i) -> forall j, (j < K * n)%nat -> B' j = Bl j.
Proof using Pos Here DW HereS DS DT DB Inj.
  intros Bs B' G Ar Bl Hl j Hj. assert (B' j - Bl j = 0) as Q; [|lra]. destruct (block_ex n K j Pos Hj) as (q & i & Hq & Hi & ->).
  apply (here _ _ Inj (fun j => B' j - Bl j)); try assumption. clear q i Hq Hi Hj. intros q i Hq Hi. rewrite <- whole_mv by assumption. rewrite mv_minus, !whole_mv by assumption. rewrite Here, HereS, Hl by assumption.
  assert (rows_d (Bs p) q i + rows n m ws surf B' q i = right_d q i) as E; [|lra].
  eapply uniqueness_limite; [apply (rows_move Bs B' q i G Hq Hi)|]. eapply eq_around; [|apply (right_moves q i Hq Hi)]. refine (around_imp p _ _ _ Ar). intros s H. symmetry. apply H; assumption.
Qed.
End Move.
