(** C57: the derivatives that the two-stream solver reports at directions other than its streams are those of the radiances that it reports there. *)
From Coq Require Import Reals Bool Arith List ZArith Lia Lra.
From Verif Require Import Base DeltaMSpec DeltaMProofs BeamProofs AddingModel AddingSpec AddingMat AddingCalls EigModel EigSpec EigMat EigProofs SingleProofs EigDProofs ScatModel GaussProofs
  TwoSpec TwoModel TwoProofs TwoLight TwoProperties TwoDSpec TwoDModel TwoDProofs TwoDSolve TwoDProperties ViewSpec ViewModel ViewProofs ViewSweep ViewProperties ViewDSpec ViewDModel ViewDProofs ViewDSweep.
Open Scope R_scope.

Section Path.
Variable lu : nat -> mat -> option (vec -> vec).
Variables (n_coef m : nat) (fl : varied) (D : R -> deck) (G : R -> ground) (p : R) (dl : deck_l) (junk : nat -> wave_l).
Variables (n : nat) (umu : vec) (once : bool) (RU RU0 : R -> vec) (ru_l ru0_l : vec) (j : nat).
Hypothesis NC : (1 < n_coef)%nat.
Hypothesis LU : lu_solver (order m) (lu (order m)).
Hypothesis Dep : depends m fl D G p dl.
Hypothesis Mk : marks m fl dl.
Hypothesis Near : around p (fun s => tame (D s) m true (G s)).
Hypothesis Cl : around p (fun s => clear (D s) m true n umu).
Hypothesis J : (j < n)%nat.
Hypothesis Mi : mirrors m fl G p RU RU0 ru_l ru0_l j.
Notation d := (D p).
Notation Ws := (Ws n_coef m D).
Notation Vs := (Vs lu n_coef m D G).
(** What is reported, along the path *)
Definition up_s (s : R) (l : nat) : R := Vu (D s) true m (G s) umu (RU s) (RU0 s) once j (Ws s) (Vs s) l.
Definition down_s (s : R) (l : nat) : R := down_lev (D s) true umu once j (Ws s) (Vs s) l.
Lemma waves : around p (fun s => tame (D s) m true (G s) /\ clear (D s) m true n umu /\ layers (D s) n_coef true (S m) = Answer (Ws s) /\ amplitudes lu (D s) true m (G s) (Ws s) = Answer (Vs s) /\ forall k, (k <= m)%nat -> wave_of (D s) true k (Ws s k)).
Proof using NC LU Near Cl.
  clear J. pose proof (around_and p _ _ (around_and p _ _ Near Cl) (solved lu n_coef m D G p NC LU Near)) as A. refine (around_imp p _ _ _ A). intros s ((T & C) & So & _).
  destruct (layers_found (D s) m true (G s) T n_coef NC (S m) (le_n _)) as (ws & E & H). assert (Ws s = ws) as EW by (unfold TwoDSolve.Ws; rewrite E; reflexivity).
  refine (conj T (conj C (conj _ (conj So _)))); rewrite EW; [exact E|]. intros k Hk. apply H. lia.
Qed.
Lemma reported : forall N lev, increasing N m lev -> exists f h : R -> nat -> option R, around p (fun s => two_stream_view lu (D s) n_coef true m (G s) n umu (RU s) (RU0 s) once N lev None j false = Answer (f s) /\
  two_stream_view lu (D s) n_coef true m (G s) n umu (RU s) (RU0 s) once N lev None j true = Answer (h s) /\ forall q, (q < N)%nat -> f s q = Some (up_s s (lev q)) /\ h s q = Some (down_s s (lev q))).
Proof using NC LU Near Cl J.
  intros N lev In. set (pick := fun s down => match two_stream_view lu (D s) n_coef true m (G s) n umu (RU s) (RU0 s) once N lev None j down with Answer f => f | _ => fun _ => None end).
  exists (fun s => pick s false), (fun s => pick s true). refine (around_imp p _ _ _ waves). intros s (T & C & El & Ea & W). unfold pick, two_stream_view. rewrite El. cbn [bind]. rewrite Ea. cbn [bind].
  destruct (sfi_up (D s) n_coef true m (G s) n umu (RU s) (RU0 s) once j (Ws s) (Vs s) T NC C J W N lev In) as (f & -> & Hf). destruct (sfi_down (D s) n_coef true m (G s) n umu once j (Ws s) (Vs s) T NC C J W N lev In) as (h & -> & Hh).
  refine (conj eq_refl (conj eq_refl _)). intros q Hq. rewrite (Hf q Hq), (Hh q Hq). split; reflexivity.
Qed.
Section Layers.
Variables (wl : nat -> wave_l) (y : vec).
Hypothesis Un : unlit_where m fl wl.
Hypothesis DW : forall k, (k <= m)%nat -> wderiv (fun s => Ws s k) p (eff (v_layer fl k) (wl k)).
Hypothesis Gr : grows m p Vs y.
Lemma below_moves : derivable_pt_lim (fun s => up_s s (S m)) p (from_below_l d dl fl true m (G p) (RU p) (RU0 p) ru_l ru0_l once j (Ws p) wl (Vs p) y).
Proof using Dep Mk Mi Un DW Gr.
  clear NC J LU Near Cl.  unfold up_s, Vu. rewrite Nat.sub_diag. cbn [up_lev]. destruct Dep as (Sm & In & Bt & Gn & _). destruct (In m (le_n m)) as (_ & _ & _ & _ & At). destruct (DW m (le_n m)) as (_ & D1 & D2 & D3 & _ & D5). specialize (Un m (le_n m)).
  pose proof (Gr (2 * m)%nat ltac:(unfold order; lia)) as D6. pose proof (Gr (2 * m + 1)%nat ltac:(unfold order; lia)) as D7. pose proof (Bt (S m) (le_n _)) as B1. destruct Mk as (_ & Mk2).
  cbn [eff wl_Fm wl_Fp wl_Xp wl_Xm wl_L] in D1, D2, D3, D5. unfold from_below_l. unfold mirrors in Mi. destruct (G p) as [(r & r0)|] eqn:Eg.
  - destruct (Mi ltac:(discriminate)) as (M1 & M2). replace (2 * S m - 2)%nat with (2 * m)%nat by lia.
    apply (eq_around (fun s => (Vs s (2 * m)%nat * - w_Xm (Ws s m) * w_L (Ws s m) + Vs s (2 * m + 1)%nat * - w_Xp (Ws s m) + w_Fm (Ws s m) * t_atran (D s) m) * RU s j + (if once then t_F0 d * t_mu0 d / PI * t_btran (D s) (S m) * RU0 s j else 0))).
    + apply around_true. intros s. unfold from_below. destruct (G s) as [gs|] eqn:Es; [|apply Gn in Es; discriminate]. replace (2 * S m - 2)%nat with (2 * m)%nat by lia. destruct (Sm s) as (_ & _ & -> & ->). destruct once; [reflexivity|ring].
    + cbv zeta. unfold when in *. cbn [andb]. destruct (v_beam fl m) eqn:Bm; [|destruct (Un eq_refl) as (Z1 & Z2); rewrite ?Z1, ?Z2 in *];
        destruct (v_beam fl (S m)); destruct (v_layer fl m); destruct (v_layer fl (S m)); destruct once; (eapply dl_eq; [ddq; apply PI_neq0|cbv beta; unfold Rdiv; ring]).
  - apply (eq_around (fun _ => 0)); [|apply dl_const]. apply around_true. intros s. unfold from_below. rewrite (proj2 (Gn s) eq_refl). reflexivity.
Qed.
Hypothesis Thick : forall k, (k <= m)%nat -> v_layer fl k = true -> t_ltau d k <> 0.
Lemma here_ok : tame d m true (G p) /\ clear d m true n umu /\ forall k, (k <= m)%nat -> wave_of d true k (Ws p k).
Proof using NC LU Near Cl. destruct (here _ _ waves) as (T & C & _ & _ & W). exact (conj T (conj C W)). Qed.
Lemma up_is : around p (fun s => forall k, (k <= m)%nat -> up_s s k = leaves_up (D s) once (umu j) k (Ws s k) (Vs s) (up_s s (S k))).
Proof using NC LU Near Cl J.
  refine (around_imp p _ _ _ waves). intros s (T & C & _ & _ & W) k Hk. unfold up_s at 1. rewrite (Vu_step _ _ _ _ _ _ _ _ _ _ _ k Hk). unfold upward. apply leaves_up_is; [apply (C j J)|]. exact (at_ok (D s) true m (G s) T k Hk eq_refl).
Qed.
Lemma down_is : forall s k, down_s s (S k) = leaves_down (D s) once (umu j) k (Ws s k) (Vs s) (down_s s k).
Proof using. intros s k. unfold down_s at 1. cbn [down_lev]. unfold downward. rewrite leaves_down_is. reflexivity. Qed.
Definition strength_up (k : nat) : R := beam_up d true once (umu j) k (wav d k) (t_F0 d).
Definition strength_down (k : nat) : R := beam_down d true once (umu j) k (wav d k) (t_F0 d).
Definition err_up (l : nat) : R := lost_up d dl fl (umu j) strength_up (S m - l) l.
Definition err_down (l : nat) : R := lost_down d dl fl (umu j) strength_down l.
Lemma wave_is : forall k, (k <= m)%nat -> Ws p k = wav d k.
Proof using NC Near. apply (here _ _ (found n_coef m D G p NC Near)). Qed.
Lemma up_step : forall k c', (k <= m)%nat -> derivable_pt_lim (fun s => up_s s (S k)) p (c' + err_up (S k)) ->
  exists x, layer_call_l d dl fl n_coef true m umu once j false (Ws p) wl (Vs p) y k (up_s p (S k)) c' = Answer (up_s p k, x) /\ derivable_pt_lim (fun s => up_s s k) p (x + err_up k).
Proof.
  intros k c' Hk Dc. destruct here_ok as (T & C & W). destruct (nu_ok d true m (G p) n umu j (Ws p) T C J W k Hk) as (N1 & N2). pose proof up_is as A. rewrite (here _ _ A k Hk).
  destruct (call_up_l n_coef m fl D G p dl NC Dep Mk umu once j k Hk (qx_ok d m true _ T) (mu0_ok d m true _ T) (proj1 (C j J)) (Thick k Hk) Ws Vs wl y (DW k Hk) (Un k Hk)
    (conj (Gr (2 * k)%nat ltac:(unfold order; lia)) (Gr (2 * k + 1)%nat ltac:(unfold order; lia))) N1 N2 (as_ok d true m n umu j C J k Hk eq_refl) (fun s => up_s s (S k)) c' (err_up (S k)) Dc) as (x & E & Dx).
  rewrite (wave_is k Hk) in Dx. fold (strength_up k) in Dx. assert (err_up k = err_up (S k) * exp (- t_ltau d k / umu j) + when (bent fl k) (overlooked_up d dl (umu j) (strength_up k) k)) as Er by (unfold err_up; replace (S m - k)%nat with (S (S m - S k)) by lia; reflexivity). rewrite <- Er in Dx.
  exists x. split; [exact E|]. refine (eq_around _ _ _ _ _ Dx). refine (around_imp p _ _ _ A). intros s H. symmetry. apply H. exact Hk.
Qed.
Lemma down_step : forall k c', (k <= m)%nat -> derivable_pt_lim (fun s => down_s s k) p (c' + err_down k) ->
  exists x, layer_call_l d dl fl n_coef true m umu once j true (Ws p) wl (Vs p) y k (down_s p k) c' = Answer (down_s p (S k), x) /\ derivable_pt_lim (fun s => down_s s (S k)) p (x + err_down (S k)).
Proof.
  intros k c' Hk Dc. destruct here_ok as (T & C & W). destruct (nu_ok d true m (G p) n umu j (Ws p) T C J W k Hk) as (N1 & N2). rewrite (down_is p k).
  destruct (call_down_l n_coef m fl D G p dl NC Dep Mk umu once j k Hk (qx_ok d m true _ T) (mu0_ok d m true _ T) (proj1 (C j J)) (Thick k Hk) Ws Vs wl y (DW k Hk) (Un k Hk)
    (conj (Gr (2 * k)%nat ltac:(unfold order; lia)) (Gr (2 * k + 1)%nat ltac:(unfold order; lia))) N1 N2 (as_ok d true m n umu j C J k Hk eq_refl) (fun s => down_s s k) c' (err_down k) Dc) as (x & E & Dx).
  rewrite (wave_is k Hk) in Dx. fold (strength_down k) in Dx. change (err_down k * exp (- t_ltau d k / umu j) + when (bent fl k) (overlooked_down d dl (umu j) (strength_down k) k)) with (err_down (S k)) in Dx.
  exists x. split; [exact E|]. refine (eq_around _ _ _ _ _ Dx). apply around_true. intros s. symmetry. apply down_is.
Qed.
End Layers.
End Path.

(** At every level of output the radiance in a direction can be differentiated, upward and downward, and its derivative is what is reported and what is
    lost in layers in which the slant of the beam changes although they are not marked. *)
Theorem C57_general : forall lu n_coef m fl D G p dl junk n umu once RU RU0 ru_l ru0_l j N levels, (1 < n_coef)%nat -> lu_solver (order m) (lu (order m)) -> depends m fl D G p dl -> marks m fl dl ->
  around p (fun s => tame (D s) m true (G s)) -> around p (fun s => clear (D s) m true n umu) -> (j < n)%nat -> mirrors m fl G p RU RU0 ru_l ru0_l j -> (forall k, (k <= m)%nat -> v_layer fl k = true -> t_ltau (D p) k <> 0) -> increasing N m levels ->
  exists (Up Down : R -> nat -> R) up down up' down',
    around p (fun s => two_stream_view lu (D s) n_coef true m (G s) n umu (RU s) (RU0 s) once N levels None j false = Answer (up s) /\ two_stream_view lu (D s) n_coef true m (G s) n umu (RU s) (RU0 s) once N levels None j true = Answer (down s) /\
      forall q, (q < N)%nat -> up s q = Some (Up s q) /\ down s q = Some (Down s q)) /\
    two_stream_view_l lu (D p) dl fl n_coef true m (G p) junk umu (RU p) (RU0 p) ru_l ru0_l once N levels j false = Answer up' /\ two_stream_view_l lu (D p) dl fl n_coef true m (G p) junk umu (RU p) (RU0 p) ru_l ru0_l once N levels j true = Answer down' /\
    forall q, (q < N)%nat -> exists u' v', up' q = Some u' /\ down' q = Some v' /\
      derivable_pt_lim (fun s => Up s q) p (u' + lost_up (D p) dl fl (umu j) (strength_up D p umu once j) (S m - levels q) (levels q)) /\ derivable_pt_lim (fun s => Down s q) p (v' + lost_down (D p) dl fl (umu j) (strength_down D p umu once j) (levels q)).
Proof.
  intros lu nc m fl D G p dl junk n umu once RU RU0 ru_l ru0_l j N lev NC LU Dep Mk Near Cl J Mi Thick In.
  destruct (reported lu nc m D G p n umu once RU RU0 j NC LU Near Cl J N lev In) as (f & h & Rep). destruct (run_l_is lu nc m fl D G p dl junk NC LU Dep Mk Near) as (wl & y & Un & DW & Gr & Run).
  exists (fun s q => up_s lu nc m D G umu once RU RU0 j s (lev q)), (fun s q => down_s lu nc m D G umu once j s (lev q)), f, h.
  pose proof (below_moves lu nc m fl D G p dl umu once RU RU0 ru_l ru0_l j Dep Mk Mi wl y Un DW Gr) as Be.
  destruct (sfi_up_l (D p) dl fl nc m umu once j (Ws nc m D p) wl (Vs lu nc m D G p) y p N lev In (up_s lu nc m D G umu once RU RU0 j) (err_up m fl D p dl umu once j) (up_step lu nc m fl D G p dl n umu once RU RU0 j NC LU Dep Mk Near Cl J wl y Un DW Gr Thick)
    (from_below_l (D p) dl fl true m (G p) (RU p) (RU0 p) ru_l ru0_l once j (Ws nc m D p) wl (Vs lu nc m D G p) y)) as (f' & Ef & Hf).
  { unfold err_up. rewrite Nat.sub_diag. cbn [lost_up]. rewrite Rplus_0_r. exact Be. }
  destruct (sfi_down_l (D p) dl fl nc m umu once j (Ws nc m D p) wl (Vs lu nc m D G p) y p N lev In (down_s lu nc m D G umu once j) (err_down fl D p dl umu once j) (down_step lu nc m fl D G p dl n umu once j NC LU Dep Mk Near Cl J wl y Un DW Gr Thick) 0)
    as (h' & Eh & Hh).
  { unfold err_down. cbn [lost_down]. rewrite Rplus_0_r. exact (dl_const 0 p). }
  exists f', h'. refine (conj Rep _). unfold two_stream_view_l. rewrite !Run. refine (conj _ (conj Eh _)).
  - rewrite <- Ef. unfold up_s, Vu. rewrite Nat.sub_diag. reflexivity.
  - intros q Hq. destruct (Hf q Hq) as (u & E1 & D1). destruct (Hh q Hq) as (v & E2 & D2). exists u, v. exact (conj E1 (conj E2 (conj D1 D2))).
Qed.
Print Assumptions C57_general.
(** So the derivatives are right if there are no such layers. *)
Lemma nothing_up : forall d dl fl u w m, steady m fl dl -> forall c l, (l + c <= S m)%nat -> lost_up d dl fl u w c l = 0.
Proof.
  intros d dl fl u w m St. induction c as [|c IH]; intros l H; cbn [lost_up]; [reflexivity|]. rewrite IH by lia. unfold bent, overlooked_up. specialize (St l ltac:(lia)).
  destruct (v_layer fl l); cbn [negb andb when]; [ring|]. destruct (v_beam fl l); cbn [when]; [|ring]. destruct (St eq_refl eq_refl) as (-> & ->). unfold Rdiv. ring.
Qed.
Lemma nothing_down : forall d dl fl u w m, steady m fl dl -> forall l, (l <= S m)%nat -> lost_down d dl fl u w l = 0.
Proof.
  intros d dl fl u w m St. induction l as [|l IH]; intros H; cbn [lost_down]; [reflexivity|]. rewrite IH by lia. unfold bent, overlooked_down. specialize (St l ltac:(lia)).
  destruct (v_layer fl l); cbn [negb andb when]; [ring|]. destruct (v_beam fl l); cbn [when]; [|ring]. destruct (St eq_refl eq_refl) as (-> & _). unfold Rdiv. ring.
Qed.
Theorem C57_levels : forall lu n_coef m fl D G p dl junk n umu once RU RU0 ru_l ru0_l j N levels, (1 < n_coef)%nat -> lu_solver (order m) (lu (order m)) -> depends m fl D G p dl -> marks m fl dl -> steady m fl dl ->
  around p (fun s => tame (D s) m true (G s)) -> around p (fun s => clear (D s) m true n umu) -> (j < n)%nat -> mirrors m fl G p RU RU0 ru_l ru0_l j -> (forall k, (k <= m)%nat -> v_layer fl k = true -> t_ltau (D p) k <> 0) -> increasing N m levels ->
  exists (Up Down : R -> nat -> R) up down up' down',
    around p (fun s => two_stream_view lu (D s) n_coef true m (G s) n umu (RU s) (RU0 s) once N levels None j false = Answer (up s) /\ two_stream_view lu (D s) n_coef true m (G s) n umu (RU s) (RU0 s) once N levels None j true = Answer (down s) /\
      forall q, (q < N)%nat -> up s q = Some (Up s q) /\ down s q = Some (Down s q)) /\
    two_stream_view_l lu (D p) dl fl n_coef true m (G p) junk umu (RU p) (RU0 p) ru_l ru0_l once N levels j false = Answer up' /\ two_stream_view_l lu (D p) dl fl n_coef true m (G p) junk umu (RU p) (RU0 p) ru_l ru0_l once N levels j true = Answer down' /\
    forall q, (q < N)%nat -> exists u' v', up' q = Some u' /\ down' q = Some v' /\ derivable_pt_lim (fun s => Up s q) p u' /\ derivable_pt_lim (fun s => Down s q) p v'.
Proof.
  intros lu nc m fl D G p dl junk n umu once RU RU0 ru_l ru0_l j N lev NC LU Dep Mk St Near Cl J Mi Thick In.
  destruct (C57_general lu nc m fl D G p dl junk n umu once RU RU0 ru_l ru0_l j N lev NC LU Dep Mk Near Cl J Mi Thick In) as (Up & Dn & up & dn & up' & dn' & Rep & E1 & E2 & H). exists Up, Dn, up, dn, up', dn'. refine (conj Rep (conj E1 (conj E2 _))).
  intros q Hq. destruct (H q Hq) as (u & v & E3 & E4 & D1 & D2). exists u, v. refine (conj E3 (conj E4 _)). destruct In as (_ & _ & Le). specialize (Le q Hq).
  rewrite (nothing_up _ _ _ _ _ m St) in D1 by lia. rewrite (nothing_down _ _ _ _ _ m St) in D2 by lia. rewrite Rplus_0_r in D1, D2. split; assumption.
Qed.
Print Assumptions C57_levels.
(** A layer without thickness on which the parameter acts: 0 / 0.  Here it is the uppermost. *)
Theorem C57_thin_refuted : forall lu n_coef m fl D G p dl junk n umu once ru ru0 ru_l ru0_l j N levels, (1 < n_coef)%nat -> lu_solver (order m) (lu (order m)) -> depends m fl D G p dl -> marks m fl dl ->
  around p (fun s => tame (D s) m true (G s)) -> clear (D p) m true n umu -> (j < n)%nat -> v_layer fl 0%nat = true -> t_ltau (D p) 0%nat = 0 -> increasing N m levels -> levels (N - 1)%nat <> 0%nat ->
  two_stream_view_l lu (D p) dl fl n_coef true m (G p) junk umu ru ru0 ru_l ru0_l once N levels j true = No_number.
Proof.
  intros lu nc m fl D G p dl junk n umu once ru ru0 ru_l ru0_l j N lev NC LU Dep Mk Near C J L Z (N0 & Gw & Le) Nz. destruct (run_l_is lu nc m fl D G p dl junk NC LU Dep Mk Near) as (wl & y & _ & _ & _ & Run). unfold two_stream_view_l. rewrite Run.
  assert (forall c c', layer_call_l (D p) dl fl nc true m umu once j true (Ws nc m D p) wl (Vs lu nc m D G p) y 0 c c' = No_number) as Bad.
  { intros c c'. pose proof (here _ _ Near) as T. destruct (C j J) as (U & _). unfold layer_call_l. destruct (Nat.ltb_spec m 0); [lia|]. rewrite view_phases_ok by first [assumption|apply (qx_ok _ _ _ _ T)|apply (mu0_ok _ _ _ _ T)]. cbn [bind].
    rewrite (view_phases_l_ok nc D p dl NC umu j 0%nat (qx_ok _ _ _ _ T) (mu0_ok _ _ _ _ T) U). cbn [bind]. cbv zeta. unfold sfi_layer_l. rewrite over_ok by lra. cbn [bind]. rewrite L, Z. unfold over at 1. destruct (Req_EM_T 0 0); [reflexivity|contradiction]. }
  unfold sfi_l. rewrite read_at by lia. replace (Z.to_nat (Z.of_nat N - 1)) with (N - 1)%nat by lia. cbn [bind]. unfold begin_l. cbn [z_out]. rewrite read_at by lia. cbn [bind]. change (Z.to_nat 0) with 0%nat. destruct (lev (N - 1)%nat) as [|c]; [lia|].
  destruct (Nat.eqb_spec 0 (lev 0%nat)); cbn [bind passes_l]; unfold pass_l; rewrite Bad; reflexivity.
Qed.
Print Assumptions C57_thin_refuted.
(** The hypotheses can be met: the atmospheres of C55's example, seen in the direction of cosine 1/5, over a surface that reflects ever more. *)
Lemma near_clear : forall four, (four <= 1)%nat -> around 0 (fun s => clear (sample_at four s) 1 true 1 (fun _ => 1 / 5)).
Proof.
  intros four F. exists (1 / 10). split; [lra|]. intros s Hs. rewrite Rminus_0_r in Hs. apply Rabs_def2 in Hs. intros j Hj. split; [lra|]. intros k Hk. unfold decay. cbn [sample_at t_four t_qx t_omega t_coef t_as0].
  split; [|intros _; split; lra]. destruct (four =? 0)%nat; apply Rlt_not_eq; destruct k as [|[|k]]; try lia; cbn [INR]; lra.
Qed.
Example views_d : forall four junk, (four <= 1)%nat -> exists up' down', let look := two_stream_view_l (fun N a => Some (gauss N a)) (sample_at four 0) sample_d sample_marks 2 true 1 (ground_at 0) junk (fun _ => 1 / 5) (fun _ => 1 / 4) (fun _ => 1 / 7) (fun _ => 1) (fun _ => 2) true 3 (fun q => q) 0 in
  look false = Answer up' /\ look true = Answer down' /\ up' 0%nat <> None /\ down' 2%nat <> None.
Proof.
  intros four junk F. destruct (sample_depends four) as (De & Ma).
  destruct (C57_levels (fun N a => Some (gauss N a)) 2 1 sample_marks (sample_at four) ground_at 0 sample_d junk 1 (fun _ => 1 / 5) true (fun s _ => 1 / 4 + s) (fun s _ => 1 / 7 + 2 * s) (fun _ => 1) (fun _ => 2) 0 3 (fun q => q) ltac:(lia) (gauss_lu _) De Ma)
    as (U0 & V0 & u0 & v0 & f & h & _ & Ef & Eh & H).
  - intros k Hk L _. destruct k as [|[|k]]; [discriminate|split; reflexivity|lia].
  - apply sample_near, F.
  - apply near_clear, F.
  - lia.
  - intros _. pose proof (dl_id 0) as Id. split; (eapply dl_eq; [ddx|cbn [sample_marks v_layer Nat.eqb negb when]; ring]).
  - intros k Hk _. cbn [sample_at t_ltau]. destruct k; lra.
  - refine (conj _ (conj _ _)); lia.
  - exists f, h. cbv zeta. replace (1 / 4 + 0) with (1 / 4) in Ef, Eh by ring. replace (1 / 7 + 2 * 0) with (1 / 7) in Ef, Eh by ring. refine (conj Ef (conj Eh _)). destruct (H 0%nat ltac:(lia)) as (u & u2 & -> & _). destruct (H 2%nat ltac:(lia)) as (v2 & v & _ & -> & _). split; discriminate.
Qed.
(** In a spherical atmosphere the slant of the beam in a layer depends on the layers above, and the derivative with respect to one of these is wrong:
    here in a second layer in which the slant changes with the thickness of the first. *)
Definition bent_at (s : R) : deck := {| t_four := 0; t_qx := 1 / 2; t_F0 := 1; t_mu0 := 1 / 2; t_coef := fun _ l => match l with 0%nat => 1 | _ => 0 end; t_omega := fun _ => 1 / 2; t_ltau := fun k => match k with O => 1 + s | _ => 1 end;
  t_as0 := fun k => match k with O => 3 | _ => 3 + s end; t_atran := fun k => match k with O => exp (- (3) * (1 + s)) | _ => exp (- (3 + s) * 1) end; t_btran := fun k => match k with O => 1 | 1%nat => exp (- (3) * (1 + s)) | _ => exp (- (3) * (1 + s)) * exp (- (3 + s) * 1) end |}.
Definition bent_d : deck_l := {| l_coef := fun _ => 0; l_omega := fun _ => 0; l_ltau := fun _ => 1; l_as0 := fun k => match k with O => 0 | _ => 1 end; l_atran := fun k => match k with O => - (3) * exp (- (3)) | _ => - exp (- (3)) end;
  l_btran := fun k => match k with O => 0 | 1%nat => - (3) * exp (- (3)) | _ => - (4) * exp (- (6)) end; l_rqq := 0; l_rq0 := 0 |}.
Definition bent_marks : varied := {| v_layer := fun k => (k =? 0)%nat; v_beam := fun _ => true |}.
Lemma bent_depends : depends 1 bent_marks bent_at (fun _ => None) 0 bent_d /\ marks 1 bent_marks bent_d.
Proof.
  assert (derivable_pt_lim (fun s => s) 0 1) as Id by apply dl_id. assert (exp (- (3) * (1 + 0)) = exp (- (3))) as E1 by (f_equal; ring). assert (exp (- (3 + 0) * 1) = exp (- (3))) as E2 by (f_equal; ring). assert (exp (- (6)) = exp (- (3)) * exp (- (3))) as E3 by (rewrite <- exp_plus; f_equal; ring).
  split; [|split; [reflexivity|discriminate]]. refine (conj (fun s => conj eq_refl (conj eq_refl (conj eq_refl eq_refl))) (conj _ (conj _ (conj _ _)))).
  - intros k Hk. destruct k as [|[|k]]; [| |lia]; cbn [bent_at bent_d bent_marks t_coef t_omega t_ltau t_as0 t_atran l_coef l_omega l_ltau l_as0 l_atran v_layer v_beam Nat.eqb negb when];
      refine (conj _ (conj _ (conj _ (conj _ _)))); (eapply dl_eq; [ddx|cbv beta; rewrite ?E1, ?E2; ring]).
  - intros k Hk. destruct k as [|[|[|k]]]; [| | |lia]; cbn [bent_at bent_d bent_marks t_btran l_btran v_beam when]; (eapply dl_eq; [ddx|cbv beta; rewrite ?E1, ?E2, ?E3; ring]).
  - intros s. split; reflexivity.
  - intros C. contradiction.
Qed.
Lemma bent_near : around 0 (fun s => tame (bent_at s) 1 true None /\ clear (bent_at s) 1 true 1 (fun _ => 1 / 5)).
Proof.
  exists (1 / 10). split; [lra|]. intros s Hs. rewrite Rminus_0_r in Hs. apply Rabs_def2 in Hs. split; [refine (conj _ (conj _ (conj _ (conj _ (conj _ _))))); cbn [bent_at t_qx t_mu0 t_four]; try lra; try lia|].
  - intros k Hk. unfold share. cbn [bent_at t_four t_qx t_omega t_coef t_ltau Nat.eqb]. rewrite Rabs_R0, Rmult_0_l, Rmax_left by lra. refine (conj eq_refl (conj _ (conj _ _))); [lra|destruct k; lra|lra].
  - intros _ k Hk. cbn [bent_at t_as0 t_atran t_ltau]. refine (conj _ (conj _ _)); [destruct k; lra| |destruct k; reflexivity]. unfold decay. cbn [bent_at t_four t_qx t_omega t_coef Nat.eqb]. apply Rgt_not_eq. destruct k; nra.
  - intros r r0 E. discriminate.
  - intros j Hj. split; [lra|]. intros k Hk. unfold decay. cbn [bent_at t_four t_qx t_omega t_coef t_as0 Nat.eqb]. split; [lra|]. intros _. destruct k; split; lra.
Qed.
Lemma bent_error : overlooked_up (bent_at 0) bent_d (1 / 5) (beam_up (bent_at 0) true true (1 / 5) 1 (wav (bent_at 0) 1) 1) 1 <> 0.
Proof.
  unfold overlooked_up, beam_up, vpp, vmp, vpm0, aa, wav, fp, fm, a15, a10, al, be, cs, pp, mp, qpm, qmm. cbn [w_Fp w_Fm bent_at bent_d t_four t_qx t_F0 t_mu0 t_coef t_omega t_ltau t_as0 t_atran t_btran l_atran l_as0 Nat.eqb].
  replace (exp (- (3 + 0) * 1)) with (exp (- (3))) by (f_equal; ring). replace (- (1) / (1 / 5)) with (- (5)) by field.
  assert (exp (- (3)) * exp (- (5)) = exp (- (8))) as E by (rewrite <- exp_plus; f_equal; ring). assert (exp (- (8)) < 1 / 9) as S8.
  { pose proof (exp_ineq1 8 ltac:(lra)) as X. pose proof (exp_pos (- (8))) as Y. assert (exp 8 * exp (- (8)) = 1) as Z by (rewrite <- exp_plus; replace (8 + - (8)) with 0 by ring; apply exp_0). nra. }
  pose proof (exp_pos (- (3) * (1 + 0))) as B. pose proof PI_RGT_0 as P. apply Rmult_integral_contrapositive_currified.
  - match goal with |- ?x <> 0 => replace x with (5 / 14 * (exp (- (3) * (1 + 0)) * (1 / (4 * PI)))) by (field; repeat split; try apply PI_neq0; lra) end. apply Rgt_not_eq. repeat apply Rmult_lt_0_compat; try lra. apply Rinv_0_lt_compat; lra.
  - match goal with |- ?x <> 0 => replace x with (5 / 64 * (9 * (exp (- (3)) * exp (- (5))) - 1)) by (field; repeat split; lra) end. rewrite E. lra.
Qed.
Theorem C57_slant_refuted : exists D dl fl p, depends 1 fl D (fun _ => None) p dl /\ marks 1 fl dl /\ around p (fun s => tame (D s) 1 true None /\ clear (D s) 1 true 1 (fun _ => 1 / 5)) /\
  forall junk, exists up' u' v', two_stream_view_l (fun N a => Some (gauss N a)) (D p) dl fl 2 true 1 None junk (fun _ => 1 / 5) zvec zvec zvec zvec true 1 (fun _ => 1%nat) 0 false = Answer up' /\ up' 0%nat = Some u' /\
    exists (Up : R -> R) up, around p (fun s => two_stream_view (fun N a => Some (gauss N a)) (D s) 2 true 1 None 1 (fun _ => 1 / 5) zvec zvec true 1 (fun _ => 1%nat) None 0 false = Answer (up s) /\ up s 0%nat = Some (Up s)) /\ derivable_pt_lim Up p v' /\ u' <> v'.
Proof.
  exists bent_at, bent_d, bent_marks, 0. destruct bent_depends as (De & Ma). refine (conj De (conj Ma (conj bent_near _))). intros junk.
  destruct (C57_general (fun N a => Some (gauss N a)) 2 1 bent_marks bent_at (fun _ => None) 0 bent_d junk 1 (fun _ => 1 / 5) true (fun _ => zvec) (fun _ => zvec) zvec zvec 0 1 (fun _ => 1%nat) ltac:(lia) (gauss_lu _) De Ma) as (Up & Dn & up & dn & up' & dn' & Ar & E & _ & H);
    [refine (around_imp _ _ _ _ bent_near); tauto|refine (around_imp _ _ _ _ bent_near); tauto|lia|intros C; contradiction|intros k Hk _; cbn [bent_at t_ltau]; destruct k; lra|refine (conj _ (conj _ _)); lia|].
  destruct (H 0%nat ltac:(lia)) as (u & v & E0 & _ & Dr & _). exists up', u. eexists. refine (conj E (conj E0 _)). exists (fun s => Up s 0%nat), up. refine (conj _ (conj Dr _)).
  - refine (around_imp _ _ _ _ Ar). intros s (E1 & _ & H1). split; [exact E1|]. apply (H1 0%nat). lia.
  - pose proof bent_error as X. intros Q. apply X. change (lost_up (bent_at 0) bent_d bent_marks (1 / 5) (strength_up bent_at 0 (fun _ => 1 / 5) true 0) (2 - 1) 1)
      with (0 * exp (- t_ltau (bent_at 0) 1 / (1 / 5)) + overlooked_up (bent_at 0) bent_d (1 / 5) (beam_up (bent_at 0) true true (1 / 5) 1 (wav (bent_at 0) 1) 1) 1) in Q. lra.
Qed.
Print Assumptions C57_slant_refuted.
