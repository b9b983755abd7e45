(** C55: the derivatives that the two-stream solver reports are those of the radiances that it reports. *)
From Coq Require Import Reals Bool Arith List ZArith Lia Lra.
From Verif Require Import Base DeltaMSpec DeltaMProofs BeamProofs AddingModel AddingSpec AddingMat AddingCalls EigModel EigSpec EigMat EigProofs SingleProofs EigDProofs ScatModel GaussProofs
  TwoSpec TwoModel TwoProofs TwoLight TwoProperties TwoDSpec TwoDModel TwoDProofs TwoDSolve.
Import ListNotations.
Open Scope R_scope.

Section Path.
Variable lu : nat -> mat -> option (vec -> vec).
Variables (n_coef m : nat) (fl : varied) (D : R -> deck) (G : R -> ground) (p : R) (dl : deck_l) (junk : nat -> wave_l).
Hypothesis NC : (1 < n_coef)%nat.
Hypothesis LU : lu_solver (order m) (lu (order m)).
Hypothesis Dep : depends m fl D G p dl.
Hypothesis Mk : marks m fl dl.
Hypothesis Near : around p (fun s => tame (D s) m true (G s)).
Notation d := (D p).
Notation g := (G p).
Notation N := (order m).
Notation Ws := (Ws n_coef m D).
Notation Vs := (Vs lu n_coef m D G).
Notation dw wl := (fun k => eff (v_layer fl k) (wl k)).
Definition unlit_where (wl : nat -> wave_l) : Prop := forall k, (k <= m)%nat -> v_beam fl k = false -> wl_Fp (wl k) = 0 /\ wl_Fm (wl k) = 0.
Lemma rows_l : forall wl, unlit_where wl -> forall r, (r < N)%nat ->
  rhs_l d dl fl true m g (Ws p) wl (Vs p) r = right_d n_coef m fl D G p dl (dw wl) r - rows_d n_coef m fl D G p dl (dw wl) (Vs p) r.
Proof using Mk NC.
  intros wl Z r Hr. set (ws := Ws p). set (x := Vs p). destruct (rhs_l_rows d dl fl true m g ws wl x) as (R0 & RK & RL). destruct Mk as (Mk1 & Mk2).
  unfold right_d, rows_d. destruct (row_cases m r Hr) as [-> |[(k & Hk & [-> | ->])| ->]].
  - rewrite R0. cbn [Nat.eqb]. unfold first_l, dn0'. fold ws. cbn [eff wl_Fm wl_Xp wl_Xm wl_L Nat.mul Nat.add]. specialize (Z 0%nat ltac:(lia)). unfold when. destruct (v_beam fl 0%nat); [|destruct (Z eq_refl) as (_ & ->)]; destruct (v_layer fl 0%nat); ring.
  - destruct (RK k Hk) as (-> & _). destruct (odd_row k) as (-> & -> & ->). destruct (Nat.eqb_spec (2 * k + 1) (2 * m + 1)); [lia|].
    unfold upper_l. replace (S k - 1)%nat with k by lia. replace (2 * k + 2)%nat with (2 * S k)%nat by lia. replace (2 * k + 3)%nat with (2 * S k + 1)%nat by lia.
    unfold upL', up0', Fp1', at'. fold ws. cbn [eff wl_Fm wl_Fp wl_Xp wl_Xm wl_L]. pose proof (Z k ltac:(lia)) as Z1. pose proof (Z (S k) ltac:(lia)) as Z2.
    unfold when. destruct (v_beam fl k); [|destruct (Z1 eq_refl) as (-> & _)]; (destruct (v_beam fl (S k)); [|destruct (Z2 eq_refl) as (-> & _)]); destruct (v_layer fl k); destruct (v_layer fl (S k)); ring.
  - destruct (RK k Hk) as (_ & ->). destruct (even_row k) as (-> & -> & ->). destruct (Nat.eqb_spec (2 * k + 2) (2 * m + 1)); [lia|].
    unfold lower_l. replace (S k - 1)%nat with k by lia. replace (2 * k + 2)%nat with (2 * S k)%nat by lia. replace (2 * k + 3)%nat with (2 * S k + 1)%nat by lia.
    unfold dnL', dn0', Fm1', at'. fold ws. cbn [eff wl_Fm wl_Fp wl_Xp wl_Xm wl_L]. pose proof (Z k ltac:(lia)) as Z1. pose proof (Z (S k) ltac:(lia)) as Z2.
    unfold when. destruct (v_beam fl k); [|destruct (Z1 eq_refl) as (_ & ->)]; (destruct (v_beam fl (S k)); [|destruct (Z2 eq_refl) as (_ & ->)]); destruct (v_layer fl k); destruct (v_layer fl (S k)); ring.
  - rewrite RL. rewrite (proj1 (odd_row m)), Nat.eqb_refl. unfold last_l. replace (2 * S m - 1)%nat with (2 * m + 1)%nat by lia. replace (2 * m + 1 - 1)%nat with (2 * m)%nat by lia.
    pose proof (Z m ltac:(lia)) as Z1. unfold glint', r', r0', upL', dnL', dnL, Fm1, Fp1', Fm1', at', V_p, albedo. fold ws. destruct g as [(r & r0)|] eqn:Eg; cbn [eff wl_Fm wl_Fp wl_Xp wl_Xm wl_L]; unfold when.
    + destruct (v_beam fl m); [|destruct (Z1 eq_refl) as (-> & ->); rewrite (Mk2 eq_refl)]; destruct (v_beam fl (S m)); destruct (v_layer fl m); destruct (v_layer fl (S m)); (field || ring); apply PI_neq0.
    + destruct (v_beam fl m); [|destruct (Z1 eq_refl) as (-> & ->); rewrite (Mk2 eq_refl)]; destruct (v_layer fl m); ring.
Qed.
Lemma run_l_is : exists wl y, unlit_where wl /\ (forall k, (k <= m)%nat -> wderiv (fun s => Ws s k) p (dw wl k)) /\ grows m p Vs y /\
  forall A (out : _ -> _ -> _ -> _ -> run A), run_l lu d dl fl n_coef true m g junk out = out (Ws p) wl (Vs p) y.
Proof using NC LU Dep Mk Near.
  pose proof (found n_coef m D G p NC Near) as Fo. destruct (here _ _ Fo) as (El & Ew).
  destruct (layers_l_are m fl D G p dl Dep Mk (here_tame m D G p Near) n_coef junk (Ws p) NC Ew (S m) (le_n _)) as (wl & Ell & Hw).
  assert (unlit_where wl) as Un by (intros k Hk; apply Hw; lia).
  assert (forall k, (k <= m)%nat -> wderiv (fun s => Ws s k) p (dw wl k)) as DW.
  { intros k Hk. destruct (Hw k ltac:(lia)) as ((W1 & W2 & W3 & W4 & W5 & W6) & _).
    assert (forall (f : wave -> R) l, derivable_pt_lim (fun s => f (wav (D s) k)) p l -> derivable_pt_lim (fun s => f (Ws s k)) p l) as Tr.
    { intros f l H. refine (eq_around _ _ p l _ H). refine (around_imp p _ _ _ Fo). intros s (_ & E). rewrite E by exact Hk. reflexivity. }
    refine (conj (Tr _ _ W1) (conj (Tr _ _ W2) (conj (Tr _ _ W3) (conj (Tr _ _ W4) (conj (Tr _ _ W5) (Tr _ _ W6)))))). }
  destruct (LU _ (here _ _ (regular_s n_coef m D G p NC Near))) as (f & Ef & Hf).
  set (y := f (rhs_l d dl fl true m g (Ws p) wl (Vs p))). exists wl, y. refine (conj Un (conj DW (conj _ _))).
  - refine (amplitudes_d lu n_coef m fl D G p dl NC LU Dep Near (dw wl) DW y _). intros r Hr. rewrite <- rows_l by assumption. apply Hf. exact Hr.
  - intros A out. unfold run_l. rewrite El. cbn [bind]. rewrite Ell. cbn [bind]. rewrite (proj1 (made n_coef m D G p)). cbn [bind]. rewrite Ef.
    assert (Vs p = f (rhs d true m g (Ws p))) as EV by (unfold TwoDSolve.Vs; rewrite Ef; reflexivity). unfold y. rewrite EV. reflexivity.
Qed.
(** At every level the two radiances can be differentiated, and the derivatives are what is reported. *)
Lemma levels_d : forall ii, (ii <= S m)%nat -> exists U V u' v', around p (fun s => two_stream_level lu (D s) n_coef true m (G s) ii = Answer (U s, V s)) /\
  two_stream_level_l lu d dl fl n_coef true m g junk ii = Answer (u', v') /\ derivable_pt_lim U p u' /\ derivable_pt_lim V p v'.
Proof using NC LU Dep Mk Near.
  intros ii Hii. destruct run_l_is as (wl & y & Un & DW & Gr & Run). unfold two_stream_level_l. rewrite Run. clear Run.
  pose proof (around_and p _ _ (found n_coef m D G p NC Near) (solved lu n_coef m D G p NC LU Near)) as Fo.
  unfold at_level_l. destruct (Nat.ltb_spec (S m) ii); [lia|]. replace (ii * 2 * 1)%nat with (2 * ii)%nat by lia. replace (m * 2 * 1)%nat with (2 * m)%nat by lia.
  destruct (Nat.eqb_spec ii (S m)) as [->|NE]; cbn [negb].
  - exists (fun s => Vs s (2 * m)%nat * w_L (Ws s m) * w_Xp (Ws s m) + Vs s (2 * m + 1)%nat * w_Xm (Ws s m) + w_Fp (Ws s m) * t_atran (D s) m),
      (fun s => Vs s (2 * m)%nat * w_L (Ws s m) * - w_Xm (Ws s m) + Vs s (2 * m + 1)%nat * - w_Xp (Ws s m) + w_Fm (Ws s m) * t_atran (D s) m). eexists. eexists. split; [|split; [reflexivity|]].
    + refine (around_imp p _ _ _ Fo). intros s ((E1 & _) & E2 & _). unfold two_stream_level. rewrite E1. cbn [bind]. rewrite E2. cbn [bind]. unfold at_level. rewrite Nat.eqb_refl. destruct (Nat.ltb_spec (S m) (S m)); [lia|]. cbn [negb].
      replace (m * 2 * 1)%nat with (2 * m)%nat by lia. reflexivity.
    + destruct (DW m (le_n m)) as (_ & D1 & D2 & D3 & D4 & D5). pose proof (Gr (2 * m)%nat ltac:(unfold order; lia)) as D6. pose proof (Gr (2 * m + 1)%nat ltac:(unfold order; lia)) as D7. pose proof (d_atran m fl D G p dl Dep m (le_n m)) as D8.
      specialize (Un m (le_n m)). unfold at' in D8. cbn [eff wl_Fm wl_Fp wl_Xp wl_Xm wl_L] in D1, D2, D3, D4, D5.
      split; (eapply dl_eq; [ddx|]); cbv beta; unfold when; (destruct (v_beam fl m); [|rewrite ?(proj1 (Un eq_refl)), ?(proj2 (Un eq_refl))]); destruct (v_layer fl m); ring.
  - exists (fun s => Vs s (2 * ii)%nat * w_Xp (Ws s ii) + Vs s (2 * ii + 1)%nat * w_L (Ws s ii) * w_Xm (Ws s ii) + w_Fp (Ws s ii)),
      (fun s => Vs s (2 * ii)%nat * - w_Xm (Ws s ii) + Vs s (2 * ii + 1)%nat * w_L (Ws s ii) * - w_Xp (Ws s ii) + w_Fm (Ws s ii)). eexists. eexists. split; [|split; [reflexivity|]].
    + refine (around_imp p _ _ _ Fo). intros s ((E1 & _) & E2 & _). unfold two_stream_level. rewrite E1. cbn [bind]. rewrite E2. cbn [bind]. unfold at_level. destruct (Nat.ltb_spec (S m) ii); [lia|]. destruct (Nat.eqb_spec ii (S m)); [lia|]. cbn [negb].
      replace (ii * 2 * 1)%nat with (2 * ii)%nat by lia. reflexivity.
    + destruct (DW ii ltac:(lia)) as (_ & D1 & D2 & D3 & D4 & D5). pose proof (Gr (2 * ii)%nat ltac:(unfold order; lia)) as D6. pose proof (Gr (2 * ii + 1)%nat ltac:(unfold order; lia)) as D7.
      specialize (Un ii ltac:(lia)). cbn [eff wl_Fm wl_Fp wl_Xp wl_Xm wl_L] in D1, D2, D3, D4, D5.
      split; (eapply dl_eq; [ddx|]); cbv beta; unfold when; (destruct (v_beam fl ii); [|rewrite ?(proj1 (Un eq_refl)), ?(proj2 (Un eq_refl))]); destruct (v_layer fl ii); ring.
Qed.
(** The same at a depth that keeps its share of the layer *)
Lemma depths_d : forall ii t, (ii <= m)%nat -> t_ltau d ii <> 0 -> (v_layer fl ii = false -> l_ltau dl ii = 0) ->
  exists U V u' v', around p (fun s => two_stream_depth lu (D s) n_coef true m (G s) ii (t * (t_ltau (D s) ii / t_ltau d ii)) = Answer (U s, V s)) /\
  two_stream_depth_l lu d dl fl n_coef true m g junk ii t = Answer (u', v') /\ derivable_pt_lim U p u' /\ derivable_pt_lim V p v'.
Proof using NC LU Dep Mk Near.
  intros ii t Hii Lt Lz. destruct run_l_is as (wl & y & Un & DW & Gr & Run). unfold two_stream_depth_l. rewrite Run. clear Run.
  pose proof (around_and p _ _ (found n_coef m D G p NC Near) (solved lu n_coef m D G p NC LU Near)) as Fo.
  unfold at_depth_l. destruct (Nat.ltb_spec m ii); [lia|]. replace (ii * 2 * 1)%nat with (2 * ii)%nat by lia. rewrite over_ok by exact Lt. cbn [bind].
  exists (fun s => Vs s (2 * ii)%nat * exp (- w_nu (Ws s ii) * (t * (t_ltau (D s) ii / t_ltau d ii) - 0)) * w_Xp (Ws s ii) + Vs s (2 * ii + 1)%nat * exp (- w_nu (Ws s ii) * (t_ltau (D s) ii - t * (t_ltau (D s) ii / t_ltau d ii))) * w_Xm (Ws s ii) + w_Fp (Ws s ii) * exp (- (t * (t_ltau (D s) ii / t_ltau d ii)) * t_as0 (D s) ii)),
    (fun s => Vs s (2 * ii)%nat * exp (- w_nu (Ws s ii) * (t * (t_ltau (D s) ii / t_ltau d ii) - 0)) * - w_Xm (Ws s ii) + Vs s (2 * ii + 1)%nat * exp (- w_nu (Ws s ii) * (t_ltau (D s) ii - t * (t_ltau (D s) ii / t_ltau d ii))) * - w_Xp (Ws s ii) + w_Fm (Ws s ii) * exp (- (t * (t_ltau (D s) ii / t_ltau d ii)) * t_as0 (D s) ii)).
  eexists. eexists. split; [|split; [reflexivity|]].
  - refine (around_imp p _ _ _ Fo). intros s ((E1 & _) & E2 & _). unfold two_stream_depth. rewrite E1. cbn [bind]. rewrite E2. cbn [bind]. unfold at_depth. destruct (Nat.ltb_spec m ii); [lia|].
    replace (ii * 2 * 1)%nat with (2 * ii)%nat by lia. reflexivity.
  - destruct (DW ii Hii) as (D0 & D1 & D2 & D3 & D4 & D5). pose proof (Gr (2 * ii)%nat ltac:(unfold order; lia)) as D6. pose proof (Gr (2 * ii + 1)%nat ltac:(unfold order; lia)) as D7.
    destruct (ins m fl D G p dl Dep ii Hii) as (_ & _ & D8 & D9 & _). specialize (Un ii Hii). cbn [eff wl_nu wl_Fm wl_Fp wl_Xp wl_Xm wl_L] in D0, D1, D2, D3, D4, D5.
    assert (t * (t_ltau d ii / t_ltau d ii) = t) as Et by (field; exact Lt). destruct Mk as (Mk1 & _). specialize (Mk1 ii Hii).
    split; (eapply dl_eq; [ddx; exact Lt|]); cbv beta; rewrite Et; unfold when; (destruct (v_beam fl ii); [|rewrite ?(proj1 (Un eq_refl)), ?(proj2 (Un eq_refl))]); (destruct (v_layer fl ii); [|try rewrite (Lz eq_refl)]); try discriminate (Mk1 eq_refl); field; exact Lt.
Qed.
End Path.

(** Along any path of atmospheres the radiances at a level are differentiable, and what the solver reports is their derivative; whatever the arrays
    hold where they are not marked. *)
Theorem C55_levels : forall lu n_coef m fl D G p dl junk ii, (1 < n_coef)%nat -> lu_solver (order m) (lu (order m)) -> depends m fl D G p dl -> marks m fl dl ->
  around p (fun s => tame (D s) m true (G s)) -> (ii <= S m)%nat ->
  exists U V u' v', around p (fun s => two_stream_level lu (D s) n_coef true m (G s) ii = Answer (U s, V s)) /\
    two_stream_level_l lu (D p) dl fl n_coef true m (G p) junk ii = Answer (u', v') /\ derivable_pt_lim U p u' /\ derivable_pt_lim V p v'.
Proof. intros lu nc m fl D G p dl junk ii NC LU Dep Mk Near Hii. exact (levels_d lu nc m fl D G p dl junk NC LU Dep Mk Near ii Hii). Qed.
Print Assumptions C55_levels.
(** The same at a depth inside a layer.  The depth keeps its share of the layer; if the layer is not marked, the derivative of its thickness must be
    stored as zero, for it is read. *)
Theorem C55_depths : forall lu n_coef m fl D G p dl junk ii t, (1 < n_coef)%nat -> lu_solver (order m) (lu (order m)) -> depends m fl D G p dl -> marks m fl dl ->
  around p (fun s => tame (D s) m true (G s)) -> (ii <= m)%nat -> t_ltau (D p) ii <> 0 -> (v_layer fl ii = false -> l_ltau dl ii = 0) ->
  exists U V u' v', around p (fun s => two_stream_depth lu (D s) n_coef true m (G s) ii (t * (t_ltau (D s) ii / t_ltau (D p) ii)) = Answer (U s, V s)) /\
    two_stream_depth_l lu (D p) dl fl n_coef true m (G p) junk ii t = Answer (u', v') /\ derivable_pt_lim U p u' /\ derivable_pt_lim V p v'.
Proof. intros lu nc m fl D G p dl junk ii t NC LU Dep Mk Near Hii Lt Lz. exact (depths_d lu nc m fl D G p dl junk NC LU Dep Mk Near ii t Hii Lt Lz). Qed.
Print Assumptions C55_depths.
(** In a layer without thickness no derivative is computed at any depth: 0 / 0. *)
Theorem C55_thin_refuted : forall lu d dl fl n_coef solar m g junk ii t u, t_ltau d ii = 0 -> two_stream_depth_l lu d dl fl n_coef solar m g junk ii t <> Answer u.
Proof.
  intros lu d dl fl nc solar m g junk ii t u E. unfold two_stream_depth_l, run_l. destruct (layers d nc solar (S m)); cbn [bind]; try discriminate. destruct (layers_l _ _ _ _ _ _ _ _); cbn [bind]; try discriminate.
  destruct (matrix m g a); cbn [bind]; try discriminate. destruct (lu (order m) a1); try discriminate. unfold at_depth_l. destruct (m <? ii)%nat; [discriminate|]. unfold over. rewrite E. destruct (Req_EM_T 0 0) as [_|C]; [discriminate|contradiction].
Qed.
Print Assumptions C55_thin_refuted.
(** Without a beam, the derivatives with respect to a parameter on which a layer depends are computed from variables that have no value. *)
Theorem C55_dark_refuted : forall lu d dl fl n_coef m g junk k ii, tame d m false g -> (1 < n_coef)%nat -> (k <= m)%nat -> v_layer fl k = true ->
  two_stream_level_l lu d dl fl n_coef false m g junk ii = Undefined.
Proof.
  intros lu d dl fl nc m g junk k ii T NC Hk Fl. destruct (layers_found d m false g T nc NC (S m) (le_n _)) as (ws & E & H). unfold two_stream_level_l, run_l. rewrite E. cbn [bind].
  assert (forall j, (j <= m)%nat -> (exists w, layer_l d dl fl nc false junk j (ws j) = Answer w) \/ layer_l d dl fl nc false junk j (ws j) = Undefined) as One.
  { intros j Hj. destruct (H j ltac:(lia)) as (P & _). destruct (each_ok d m false g T j Hj) as (_ & W & _ & Sh). pose proof (qx_ok d m false g T) as Q. destruct (slopes d j Q W Sh) as (S1 & _).
    unfold layer_l, coefficient. destruct (Nat.ltb_spec 1 nc); [|lia]. cbn [bind]. rewrite (phases_ok d j (four_ok d m false g T) Q (mu0_ok d m false g T)). cbn [bind]. fold (half d). cbv zeta. rewrite (al_is d j Q), (be_is d j Q).
    destruct (v_layer fl j); [right|left; eexists; reflexivity]. destruct (t_four d =? 0)%nat; cbv beta iota; (rewrite over_ok by lra; cbn [bind]; rewrite over_ok by lra; reflexivity). }
  assert (layer_l d dl fl nc false junk k (ws k) = Undefined) as Bad.
  { destruct (One k Hk) as [(w & Ew)|Eu]; [|exact Eu]. exfalso. revert Ew. destruct (H k ltac:(lia)) as (P & _). destruct (each_ok d m false g T k Hk) as (_ & W & _ & Sh). pose proof (qx_ok d m false g T) as Q. destruct (slopes d k Q W Sh) as (S1 & _).
    unfold layer_l, coefficient. destruct (Nat.ltb_spec 1 nc); [|lia]. cbn [bind]. rewrite (phases_ok d k (four_ok d m false g T) Q (mu0_ok d m false g T)). cbn [bind]. fold (half d). cbv zeta. rewrite (al_is d k Q), (be_is d k Q), Fl.
    destruct (t_four d =? 0)%nat; cbv beta iota; (rewrite over_ok by lra; cbn [bind]; rewrite over_ok by lra; cbn [bind]; discriminate). }
  assert (forall K, (K <= S m)%nat -> ((exists wl, layers_l d dl fl nc false junk ws K = Answer wl) /\ (K <= k)%nat) \/ layers_l d dl fl nc false junk ws K = Undefined) as All.
  { induction K as [|K IH]; intros HK; [left; split; [eexists; reflexivity|lia]|]. cbn [layers_l]. destruct (IH ltac:(lia)) as [((wl & ->) & L)| ->]; cbn [bind]; [|right; reflexivity].
    destruct (Nat.eq_dec K k) as [->|NE]; [rewrite Bad; right; reflexivity|]. destruct (One K ltac:(lia)) as [(w & ->)| ->]; cbn [bind]; [left; split; [eexists; reflexivity|lia]|right; reflexivity]. }
  destruct (All (S m) (le_n _)) as [(_ & L)| ->]; [lia|reflexivity].
Qed.
Print Assumptions C55_dark_refuted.

(** The hypotheses can be met: the albedo and the thickness of the first of two layers and the reflection of the surface depend on the parameter. *)
Definition sample_at (four : nat) (s : R) : deck := {| t_four := four; t_qx := 1 / 2; t_F0 := 1; t_mu0 := 1 / 2; t_coef := fun k l => match l with 0%nat => 1 | _ => INR k end;
  t_omega := fun k => match k with O => 1 / 2 + s | _ => 1 / 2 end; t_ltau := fun k => match k with O => 1 + s | _ => 2 end; t_as0 := fun _ => 3;
  t_atran := fun k => match k with O => exp (- (3) * (1 + s)) | _ => exp (- (3) * 2) end; t_btran := fun k => match k with O => 1 | 1%nat => exp (- (3) * (1 + s)) | _ => exp (- (3) * (3 + s)) end |}.
Definition ground_at (s : R) : ground := Some (1 / 2 + s, 1 / 3).
Definition sample_d : deck_l := {| l_coef := fun _ => 0; l_omega := fun _ => 1; l_ltau := fun k => match k with O => 1 | _ => 0 end; l_as0 := fun _ => 0; l_atran := fun k => match k with O => - (3) * exp (- (3)) | _ => 0 end;
  l_btran := fun k => match k with O => 0 | 1%nat => - (3) * exp (- (3)) | _ => - (3) * exp (- (9)) end; l_rqq := 1; l_rq0 := 0 |}.
Definition sample_marks : varied := {| v_layer := fun k => negb (k =? 1)%nat; v_beam := fun _ => true |}.
Lemma sample_depends : forall four, depends 1 sample_marks (sample_at four) ground_at 0 sample_d /\ marks 1 sample_marks sample_d.
Proof.
  intros four. assert (derivable_pt_lim (fun s => s) 0 1) as Id by apply dl_id. split; [|split; [reflexivity|discriminate]]. refine (conj (fun s => conj eq_refl (conj eq_refl (conj eq_refl eq_refl))) (conj _ (conj _ (conj _ _)))).
  - intros k Hk. destruct k as [|[|k]]; [| |lia]; cbn [sample_at sample_d sample_marks t_coef t_omega t_ltau t_as0 t_atran l_coef l_omega l_ltau l_as0 l_atran v_layer v_beam Nat.eqb negb when];
      refine (conj _ (conj _ (conj _ (conj _ _)))); (eapply dl_eq; [ddx|cbv beta; try ring]). replace (- (3) * (1 + 0)) with (- (3)) by ring. ring.
  - intros k Hk. destruct k as [|[|[|k]]]; [| | |lia]; cbn [sample_at sample_d sample_marks t_btran l_btran v_beam when]; (eapply dl_eq; [ddx|cbv beta; try ring]); [replace (- (3) * (1 + 0)) with (- (3)) by ring; ring|replace (- (3) * (3 + 0)) with (- (9)) by ring; ring].
  - intros s. unfold ground_at. split; discriminate.
  - intros _. cbn [ground_at rqq rq0 sample_d sample_marks l_rqq l_rq0 v_layer Nat.eqb negb when]. split; (eapply dl_eq; [ddx|ring]).
Qed.
Lemma sample_near : forall four, (four <= 1)%nat -> around 0 (fun s => tame (sample_at four s) 1 true (ground_at s)).
Proof.
  intros four F. exists (1 / 10). split; [lra|]. intros s Hs. rewrite Rminus_0_r in Hs. apply Rabs_def2 in Hs. refine (conj F (conj _ (conj _ (conj _ (conj _ _))))); cbn [sample_at t_qx t_mu0]; try lra.
  - intros k Hk. unfold share. cbn [sample_at t_four t_qx t_omega t_coef t_ltau]. assert (0 <= INR k <= 1) as B by (destruct k as [|[|k]]; [cbn; lra|cbn; lra|lia]). rewrite Rabs_pos_eq by lra.
    refine (conj eq_refl (conj _ (conj _ _))); [destruct k; lra|destruct k; lra|]. destruct (four =? 0)%nat; [rewrite Rmax_left by lra; destruct k; lra|destruct k as [|[|k]]; [cbn [INR]; lra|cbn [INR]; lra|lia]].
  - intros _ k Hk. cbn [sample_at t_as0 t_atran t_ltau]. refine (conj _ (conj _ _)); [lra| |destruct k; reflexivity]. unfold decay. cbn [sample_at t_four t_qx t_omega t_coef].
    destruct (four =? 0)%nat; apply Rgt_not_eq; destruct k as [|[|k]]; try lia; cbn [INR]; lra.
  - intros r r0 E. injection E as <- <-. nra.
Qed.
Example works_d : forall four junk ii, (four <= 1)%nat -> (ii <= 2)%nat -> exists u' v', two_stream_level_l (fun N a => Some (gauss N a)) (sample_at four 0) sample_d sample_marks 2 true 1 (ground_at 0) junk ii = Answer (u', v').
Proof.
  intros four junk ii F Hii. destruct (sample_depends four) as (De & Ma). destruct (C55_levels (fun N a => Some (gauss N a)) 2 1 sample_marks (sample_at four) ground_at 0 sample_d junk ii ltac:(lia) (gauss_lu _) De Ma (sample_near four F) Hii) as (_ & _ & u & v & _ & E & _).
  exists u, v. exact E.
Qed.
