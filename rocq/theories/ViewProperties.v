(** C56: the radiances of the two-stream solver at directions other than its streams are those of the equation of transfer. *)
From Coq Require Import Reals Bool Arith List ZArith Lia Lra.
From Verif Require Import Base DeltaMSpec DeltaMProofs AddingModel AddingSpec AddingMat EigModel EigSpec AtmSpec BvpSpec ScatModel GaussProofs TwoSpec TwoModel TwoProofs TwoLight TwoProperties ViewSpec ViewModel ViewProofs ViewSweep ViewLight.
Open Scope R_scope.

Lemma view_found : forall lu d n_coef m solar g n umu ru ru0 once xs, sees_from d n umu once xs -> tame d m solar g -> clear d m solar n umu -> (1 < n_coef)%nat -> lu_solver (order m) (lu (order m)) ->
  exists ws v, layers d n_coef solar (S m) = Answer ws /\ amplitudes lu d solar m g ws = Answer v /\ (forall k, (k <= m)%nat -> wave_of d solar k (ws k)) /\
    atmosphere (S n) m solar false xs (mirror g ru) zvec (glints d solar m g ru0 once) (view_p d m solar g umu ru ru0 once ws v) (view_m d solar umu once ws v).
Proof.
  intros lu d nc m solar g n umu ru ru0 once xs See T C NC LU. destruct (streams_of d n umu once xs See) as (zs & Z). destruct (run_found lu d nc m solar g zs (proj1 Z) T NC LU) as (ws & v & El & Ea & W & At).
  exists ws, v. refine (conj El (conj Ea (conj W _))). exact (view_light d m solar g n umu ru ru0 once xs See T ws v C W zs Z At).
Qed.
(** The light exists, with the directions of output as further streams, and the solver returns it in each of them, at every level that is asked for. *)
Theorem C56_levels : forall lu d n_coef m solar g n umu ru ru0 once xs, sees_from d n umu once xs -> tame d m solar g -> clear d m solar n umu -> (1 < n_coef)%nat -> lu_solver (order m) (lu (order m)) ->
  exists Ip Im, atmosphere (S n) m solar false xs (mirror g ru) zvec (glints d solar m g ru0 once) Ip Im /\
  forall N levels j, increasing N m levels -> (j < n)%nat -> exists up down,
    two_stream_view lu d n_coef solar m g n umu ru ru0 once N levels None j false = Answer up /\ two_stream_view lu d n_coef solar m g n umu ru ru0 once N levels None j true = Answer down /\
    forall q, (q < N)%nat -> up q = Some (at_the_level d m Ip (S j) (levels q)) /\ down q = Some (at_the_level d m Im (S j) (levels q)).
Proof.
  intros lu d nc m solar g n umu ru ru0 once xs See T C NC LU. destruct (view_found lu d nc m solar g n umu ru ru0 once xs See T C NC LU) as (ws & v & El & Ea & W & At). eexists. eexists. split; [exact At|].
  intros N lev j In Hj. destruct (sfi_up d nc solar m g n umu ru ru0 once j ws v T NC C Hj W N lev In) as (f & Ef & Hf). destruct (sfi_down d nc solar m g n umu once j ws v T NC C Hj W N lev In) as (h & Eh & Hh).
  exists f, h. unfold two_stream_view. rewrite El. cbn [bind]. rewrite Ea. cbn [bind]. refine (conj Ef (conj Eh _)). intros q Hq. rewrite (Hf q Hq), (Hh q Hq). destruct In as (_ & _ & Le). specialize (Le q Hq). unfold at_the_level. destruct (Nat.leb_spec (lev q) m) as [L|L].
  - unfold view_p, view_m. rewrite (top_of d m solar g n umu once T ws v C W) by lia. split; [f_equal; apply Vu_step; lia|reflexivity].
  - assert (lev q = S m) as -> by lia. unfold view_p, view_m. rewrite (bottom_of d m solar g n umu once T ws v C W) by lia. split; reflexivity.
Qed.
Print Assumptions C56_levels.
(** At depths within layers the code confuses the flux with the number of directions.  If the flux is neither less than the number of the direction,
    counted from one, nor greater than that of all of them by one or more, it returns the light and an error: that of the wrong flux between the output
    and the boundary of its layer.  Downward a single output at the very top is excluded. *)
Theorem C56_depths_flux : forall lu d n_coef m solar g n umu ru ru0 once xs, sees_from d n umu once xs -> tame d m solar g -> clear d m solar n umu -> (1 < n_coef)%nat -> lu_solver (order m) (lu (order m)) ->
  exists Ip Im, atmosphere (S n) m solar false xs (mirror g ru) zvec (glints d solar m g ru0 once) Ip Im /\
  forall N layer tau j, descending N m d layer tau -> (j < n)%nat -> INR (S j) <= t_F0 d < INR n + 1 ->
    (exists up, two_stream_view lu d n_coef solar m g n umu ru ru0 once N layer (Some tau) j false = Answer up /\
       forall q, (q < N)%nat -> up q = Some (Ip (layer q) (S j) (tau q) + excess_up solar (INR n) (xs (layer q)) (S j) (tau q))) /\
    ((1 < N)%nat \/ layer 0%nat <> 0%nat \/ tau 0%nat <> 0 ->
     exists down, two_stream_view lu d n_coef solar m g n umu ru ru0 once N layer (Some tau) j true = Answer down /\
       forall q, (q < N)%nat -> down q = Some (Im (layer q) (S j) (tau q) + excess_down solar (INR n) (xs (layer q)) (S j) (tau q))).
Proof.
  intros lu d nc m solar g n umu ru ru0 once xs See T C NC LU. destruct (view_found lu d nc m solar g n umu ru ru0 once xs See T C NC LU) as (ws & v & El & Ea & W & At). eexists. eexists. split; [exact At|].
  intros N lay tau j De Hj F. unfold two_stream_view. rewrite El. cbn [bind]. rewrite Ea. cbn [bind]. pose proof De as (_ & _ & In).
  assert (forall k, (k <= m)%nat -> omega (xs k) = t_omega d k /\ flux0 (xs k) = t_F0 d /\ btran (xs k) = t_btran d k /\ as_0 (xs k) = t_as0 d k /\ ltau (xs k) = t_ltau d k /\ qx (xs k) (S j) = umu j /\
    Q_mm (xs k) (S j) = (if once then vmm0 d (umu j) k else 0) /\ Q_pm (xs k) (S j) = (if once then vpm0 d (umu j) k else 0)) as X.
  { intros k Hk. destruct (each_ok d m solar g T k Hk) as (C0 & _). destruct (seen_from d n umu once xs k (S j) See (four_ok d m solar g T) (qx_ok d m solar g T) (mu0_ok d m solar g T) C0 ltac:(lia)) as (_ & _ & Q1 & Q2).
    refine (conj _ (conj _ (conj _ (conj _ (conj _ (conj _ (conj Q1 Q2))))))); destruct See as (y & y0 & Y & Y0 & _ & _ & ->); reflexivity. }
  split.
  - destruct (sfi_up2 d nc solar m g n umu ru ru0 once j ws v T NC C Hj W N lay tau De F) as (f & Ef & Hf). exists f. split; [exact Ef|]. intros q Hq. rewrite (Hf q Hq). f_equal. destruct (In q Hq) as (Lq & _). destruct (X (lay q) Lq) as (X1 & X2 & X3 & X4 & X5 & X6 & _ & X8).
    unfold excess_up. rewrite X1, X2, X3, X4, X5, X6, X8. unfold view_p, upward, up_val. cbv iota beta. unfold up_at, beam_up, Vu. destruct solar; [|ring]. destruct (C j Hj) as (U & R). destruct (R (lay q) Lq) as (_ & R2). destruct (R2 eq_refl) as (R3 & R4).
    destruct (nu_ok d true m g n umu j ws T C Hj W (lay q) Lq) as (P & P1). assert (0 < umu j * w_nu (ws (lay q))) as P2 by (apply Rmult_lt_0_compat; lra). destruct once; field; repeat split; first [apply PI_neq0|lra].
  - intros Nt. destruct (sfi_down2 d nc solar m g n umu once j ws v T NC C Hj W N lay tau De F Nt) as (f & Ef & Hf). exists f. split; [exact Ef|]. intros q Hq. rewrite (Hf q Hq). f_equal. destruct (In q Hq) as (Lq & _). destruct (X (lay q) Lq) as (X1 & X2 & X3 & X4 & X5 & X6 & X7 & _).
    unfold excess_down. rewrite X1, X2, X3, X4, X6, X7. unfold view_m, downward, down_val. cbv iota beta. unfold down_at, beam_down. destruct solar; [|ring]. destruct (C j Hj) as (U & R). destruct (R (lay q) Lq) as (_ & R2). destruct (R2 eq_refl) as (R3 & R4).
    destruct (nu_ok d true m g n umu j ws T C Hj W (lay q) Lq) as (P & P1). assert (0 < umu j * w_nu (ws (lay q))) as P2 by (apply Rmult_lt_0_compat; lra). destruct once; field; repeat split; first [apply PI_neq0|lra].
Qed.
Print Assumptions C56_depths_flux.
(** So it is right if the flux of the beam is, as a number, the number of directions. *)
Theorem C56_depths : forall lu d n_coef m solar g n umu ru ru0 once xs, sees_from d n umu once xs -> tame d m solar g -> clear d m solar n umu -> (1 < n_coef)%nat -> lu_solver (order m) (lu (order m)) -> t_F0 d = INR n ->
  exists Ip Im, atmosphere (S n) m solar false xs (mirror g ru) zvec (glints d solar m g ru0 once) Ip Im /\
  forall N layer tau j, descending N m d layer tau -> (j < n)%nat ->
    (exists up, two_stream_view lu d n_coef solar m g n umu ru ru0 once N layer (Some tau) j false = Answer up /\ forall q, (q < N)%nat -> up q = Some (Ip (layer q) (S j) (tau q))) /\
    ((1 < N)%nat \/ layer 0%nat <> 0%nat \/ tau 0%nat <> 0 ->
     exists down, two_stream_view lu d n_coef solar m g n umu ru ru0 once N layer (Some tau) j true = Answer down /\ forall q, (q < N)%nat -> down q = Some (Im (layer q) (S j) (tau q))).
Proof.
  intros lu d nc m solar g n umu ru ru0 once xs See T C NC LU F. destruct (C56_depths_flux lu d nc m solar g n umu ru ru0 once xs See T C NC LU) as (Ip & Im & At & H). exists Ip, Im. split; [exact At|]. intros N lay tau j De Hj.
  assert (INR (S j) <= t_F0 d < INR n + 1) as B by (rewrite F; split; [apply le_INR; lia|lra]). assert (forall k, flux0 (xs k) = INR n) as E by (intros k; rewrite <- F; destruct See as (y & y0 & Y & Y0 & _ & _ & ->); reflexivity).
  destruct (H N lay tau j De Hj B) as ((f & Ef & Hf) & Dn). split.
  - exists f. split; [exact Ef|]. intros q Hq. rewrite (Hf q Hq). f_equal. unfold excess_up, Rdiv. rewrite E. destruct solar; ring.
  - intros Nt. destruct (Dn Nt) as (h & Eh & Hh). exists h. split; [exact Eh|]. intros q Hq. rewrite (Hh q Hq). f_equal. unfold excess_down, Rdiv. rewrite E. destruct solar; ring.
Qed.
Print Assumptions C56_depths.
(** The equation has no other solution. *)
Theorem C56_unique : forall d m solar g n umu ru ru0 once xs, sees_from d n umu once xs -> tame d m solar g -> (forall j, (j < n)%nat -> 0 < umu j) -> forall Ip Im Ip' Im',
  atmosphere (S n) m solar false xs (mirror g ru) zvec (glints d solar m g ru0 once) Ip Im -> atmosphere (S n) m solar false xs (mirror g ru) zvec (glints d solar m g ru0 once) Ip' Im' ->
  same_light (S n) m xs Ip Im Ip' Im'.
Proof.
  intros d m solar g n umu ru ru0 once xs See T U Ip Im Ip' Im'. apply (only_light d m solar g n umu ru ru0 once xs See T). intros [|j] Hi; cbn [angle]; [pose proof (qx_ok d m solar g T); lra|apply U; lia].
Qed.
Print Assumptions C56_unique.
(** If the flux is greater than the number of directions by one or more, the code reads and writes beyond its arrays at the first output within a
    layer; if it is -1 or less, it declares arrays of negative length. *)
Lemma read_in : forall N (A : Type) (f : nat -> A) q, (0 <= q)%Z -> (q < Z.of_nat N)%Z -> read N f q = Answer (f (Z.to_nat q)).
Proof. intros N A f q H1 H2. unfold read. destruct (Z.leb_spec 0 q); [|lia]. destruct (Z.ltb_spec q (Z.of_nat N)); [reflexivity|lia]. Qed.
Lemma swapped_lost : forall d n_coef solar m n umu once j down ws b k a1 b1 p c, INR n + 1 <= t_F0 d \/ t_F0 d <= -1 -> swapped_call d n_coef solar m n umu once j down ws b k a1 b1 p c = Undefined.
Proof.
  intros d nc solar m n umu once j down ws b k a1 b1 p c H. unfold swapped_call. destruct (Rle_dec (t_F0 d) (-1)); [reflexivity|]. destruct H as [H|H]; [|contradiction]. pose proof (pos_INR n). destruct (Rlt_dec (t_F0 d) 0); [lra|]. cbv zeta.
  destruct (Z.ltb_spec (Z.of_nat n) (Int_part (t_F0 d))) as [|L]; [reflexivity|]. exfalso. destruct (base_Int_part (t_F0 d)) as (_ & B). apply IZR_le in L. rewrite <- INR_IZR_INZ in L. lra.
Qed.
Theorem C56_flux_refuted : forall lu d n_coef m solar g n umu ru ru0 once xs N layer tau j, sees d xs -> tame d m solar g -> (1 < n_coef)%nat -> lu_solver (order m) (lu (order m)) ->
  descending N m d layer tau -> INR n + 1 <= t_F0 d \/ t_F0 d <= -1 ->
  (layer (N - 1)%nat = m -> two_stream_view lu d n_coef solar m g n umu ru ru0 once N layer (Some tau) j false = Undefined) /\
  (layer 0%nat = 0%nat -> tau 0%nat <> 0 -> two_stream_view lu d n_coef solar m g n umu ru ru0 once N layer (Some tau) j true = Undefined).
Proof.
  intros lu d nc m solar g n umu ru ru0 once xs N lay tau j See T NC LU (N0 & Mo & In) H. destruct (run_found lu d nc m solar g xs See T NC LU) as (ws & v & El & Ea & _). unfold two_stream_view. rewrite El. cbn [bind]. rewrite Ea. cbn [bind].
  destruct N as [|N]; [lia|]. destruct (In 0%nat N0) as (L0 & _). split.
  - intros E. unfold sfi. rewrite read_in by lia. change (Z.to_nat 0) with 0%nat. cbn [bind]. destruct (Nat.ltb_spec (S m) (lay 0%nat)); [lia|]. cbn [bind]. unfold begin. cbn [s_out]. rewrite read_in by lia. cbn [bind].
    replace (Z.to_nat (Z.of_nat (S N) - 1)) with (S N - 1)%nat by lia. rewrite E. destruct (Nat.eqb_spec (S m) m); [lia|]. cbn [bind]. replace (S m - lay 0%nat)%nat with (S (m - lay 0%nat)) by lia. cbn [passes]. unfold pass. cbn [s_out].
    rewrite read_in by lia. cbn [bind]. replace (Z.to_nat (Z.of_nat (S N) - 1)) with (S N - 1)%nat by lia. rewrite E, Nat.eqb_refl. cbn [within s_out]. destruct (Z.leb_spec 0 (Z.of_nat (S N) - 1)); [|lia]. destruct (Z.ltb_spec (Z.of_nat (S N) - 1) (Z.of_nat (S N))); [|lia]. cbn [andb].
    replace (Z.to_nat (Z.of_nat (S N) - 1)) with (S N - 1)%nat by lia. rewrite E, Nat.eqb_refl. rewrite swapped_lost by exact H. reflexivity.
  - intros E Nz. unfold sfi. rewrite read_in by lia. cbn [bind]. unfold begin. cbn [s_out]. rewrite !read_in by lia. change (Z.to_nat 0) with 0%nat. cbn [bind]. rewrite E, Nat.eqb_refl. destruct (Req_EM_T (tau 0%nat) 0); [contradiction|]. cbn [bind passes]. unfold pass. cbn [s_out].
    rewrite read_in by lia. change (Z.to_nat 0) with 0%nat. cbn [bind]. rewrite E, Nat.eqb_refl. cbn [within s_out]. destruct (Z.ltb_spec 0 (Z.of_nat (S N))); [|lia]. cbn [Z.leb Z.compare andb]. change (Z.to_nat 0) with 0%nat. rewrite E, Nat.eqb_refl. rewrite swapped_lost by exact H. reflexivity.
Qed.
Print Assumptions C56_flux_refuted.
(** If the flux is less than the number of a direction, counted from one, nothing is written for this direction. *)
Lemma swapped_none : forall d n_coef solar m n umu once j down ws b k a1 b1 p c, (j < n)%nat -> -1 < t_F0 d < INR (S j) -> swapped_call d n_coef solar m n umu once j down ws b k a1 b1 p c = Answer None.
Proof.
  intros d nc solar m n umu once j down ws b k a1 b1 p c J (H1 & H2). unfold swapped_call. destruct (Rle_dec (t_F0 d) (-1)); [lra|]. cbv zeta. set (z := if Rlt_dec (t_F0 d) 0 then 0%Z else Int_part (t_F0 d)). assert (z <= Z.of_nat j)%Z as L.
  { unfold z. destruct (Rlt_dec (t_F0 d) 0); [lia|]. destruct (base_Int_part (t_F0 d)) as (B & _). rewrite INR_IZR_INZ in H2. assert (IZR (Int_part (t_F0 d)) < IZR (Z.of_nat (S j))) as C by lra. apply lt_IZR in C. lia. }
  destruct (Z.ltb_spec (Z.of_nat n) z); [lia|]. destruct (Z.ltb_spec (Z.of_nat j) z); [lia|reflexivity].
Qed.
Lemma within_none : forall d n_coef solar m n umu once N lay tau j down ws b, (j < n)%nat -> -1 < t_F0 d < INR (S j) -> forall fuel i s s',
  within d n_coef solar m n umu once N lay j fuel down ws b tau i s = Answer s' -> s_Iu s' = s_Iu s.
Proof.
  intros d nc solar m n umu once N lay tau j down ws b J H. induction fuel as [|fuel IH]; intros i s s' E; cbn [within] in E; [injection E as <-; reflexivity|].
  destruct ((0 <=? s_out s)%Z && (s_out s <? Z.of_nat N)%Z); [|injection E as <-; reflexivity]. destruct (i =? lay (Z.to_nat (s_out s)))%nat; [|injection E as <-; reflexivity]. rewrite (swapped_none _ _ _ _ _ _ _ _ _ _ _ _ _ _ _ _ J H) in E. cbn [bind] in E. apply IH in E. exact E.
Qed.
Lemma passes_none : forall d n_coef solar m n umu once N lay tau j down ws b, (j < n)%nat -> -1 < t_F0 d < INR (S j) -> forall c i s s',
  passes d n_coef solar m n umu once N lay (Some tau) j c down ws b i s = Answer s' -> s_Iu s' = s_Iu s.
Proof.
  intros d nc solar m n umu once N lay tau j down ws b J H. induction c as [|c IH]; intros i s s' E; cbn [passes] in E; [injection E as <-; reflexivity|].
  destruct (pass d nc solar m n umu once N lay (Some tau) j down ws b i s) as [s1| | |] eqn:P; try discriminate. cbn [bind] in E. rewrite (IH _ _ _ E). clear E IH. unfold pass in P.
  destruct (read N lay (s_out s)) as [l| | |]; try discriminate. cbn [bind] in P. destruct (if (i =? l)%nat then within d nc solar m n umu once N lay j N down ws b tau i s else Answer s) as [s2| | |] eqn:Wn; try discriminate.
  cbn [bind] in P. destruct (layer_call _ _ _ _ _ _ _ _ _ _ _ _ _ _ _ _); try discriminate. cbn [bind] in P. injection P as <-. cbn [s_Iu]. destruct (i =? l)%nat; [exact (within_none _ _ _ _ _ _ _ _ _ _ _ _ _ _ J H _ _ _ _ Wn)|injection Wn as <-; reflexivity].
Qed.
Theorem C56_unwritten_refuted : forall lu d n_coef m solar g n umu ru ru0 once N layer tau j f, (j < n)%nat -> -1 < t_F0 d < INR (S j) -> descending N m d layer tau ->
  two_stream_view lu d n_coef solar m g n umu ru ru0 once N layer (Some tau) j false = Answer f -> forall q, f q = None.
Proof.
  intros lu d nc m solar g n umu ru ru0 once N lay tau j f J H (N0 & Mo & In) E q. unfold two_stream_view in E. destruct (layers d nc solar (S m)) as [ws| | |]; try discriminate. cbn [bind] in E. destruct (amplitudes lu d solar m g ws) as [v| | |]; try discriminate. cbn [bind] in E.
  unfold sfi in E. rewrite read_in in E by lia. cbn [bind] in E. destruct (_ <? _)%nat; [discriminate|]. cbn [bind] in E. unfold begin in E. cbn [s_out] in E. rewrite read_in in E by lia. cbn [bind] in E.
  destruct (Nat.eqb_spec (S m) (lay (Z.to_nat (Z.of_nat N - 1)))) as [X|_]; [destruct (In (N - 1)%nat ltac:(lia)); replace (Z.to_nat (Z.of_nat N - 1)) with (N - 1)%nat in X by lia; lia|]. cbn [bind] in E.
  match type of E with bind ?p _ = _ => destruct p as [s'| | |] eqn:P; try discriminate end. cbn [bind] in E. injection E as <-. rewrite (passes_none _ _ _ _ _ _ _ _ _ _ _ _ _ _ J H _ _ _ _ P). reflexivity.
Qed.
Print Assumptions C56_unwritten_refuted.
(** The call does end: here with one output in the lowest layer. *)
Theorem C56_silent_refuted : forall lu d n_coef m solar g n umu ru ru0 once xs layer tau j, sees d xs -> tame d m solar g -> clear d m solar n umu -> (1 < n_coef)%nat -> lu_solver (order m) (lu (order m)) ->
  (j < n)%nat -> -1 < t_F0 d < INR (S j) -> layer 0%nat = m -> exists f, two_stream_view lu d n_coef solar m g n umu ru ru0 once 1 layer (Some tau) j false = Answer f /\ f 0%nat = None.
Proof.
  intros lu d nc m solar g n umu ru ru0 once xs lay tau j See T C NC LU J H E. destruct (run_found lu d nc m solar g xs See T NC LU) as (ws & v & El & Ea & W & _). unfold two_stream_view. rewrite El. cbn [bind]. rewrite Ea. cbn [bind].
  unfold sfi. rewrite read_in by lia. change (Z.to_nat 0) with 0%nat. cbn [bind]. rewrite E. destruct (Nat.ltb_spec (S m) m); [lia|]. cbn [bind]. unfold begin. cbn [s_out]. change (Z.of_nat 1 - 1)%Z with 0%Z. rewrite read_in by lia. cbn [bind]. change (Z.to_nat 0) with 0%nat.
  rewrite E. destruct (Nat.eqb_spec (S m) m); [lia|]. cbn [bind]. replace (S m - m)%nat with 1%nat by lia. cbn [passes]. unfold pass. cbn [s_out]. rewrite read_in by lia. change (Z.to_nat 0) with 0%nat. cbn [bind]. rewrite E, Nat.eqb_refl. cbn [within s_out].
  change ((0 <=? 0)%Z && (0 <? Z.of_nat 1)%Z) with true. cbv iota. change (Z.to_nat 0) with 0%nat. rewrite E, Nat.eqb_refl, swapped_none by assumption. cbn [bind s_I0 s_Iu s_out].
  rewrite (up_whole d nc solar m g n umu once j ws v T NC C J W m _ (le_n m)). cbn [bind]. eexists. split; reflexivity.
Qed.
Print Assumptions C56_silent_refuted.
(** A single output at the top: downward the code reads beyond the list of the outputs. *)
Theorem C56_top_refuted : forall lu d n_coef m solar g n umu ru ru0 once xs layer tau j, sees d xs -> tame d m solar g -> (1 < n_coef)%nat -> lu_solver (order m) (lu (order m)) ->
  layer 0%nat = 0%nat -> tau 0%nat = 0 -> two_stream_view lu d n_coef solar m g n umu ru ru0 once 1 layer (Some tau) j true = Undefined.
Proof.
  intros lu d nc m solar g n umu ru ru0 once xs lay tau j See T NC LU E Ez. destruct (run_found lu d nc m solar g xs See T NC LU) as (ws & v & El & Ea & _). unfold two_stream_view. rewrite El. cbn [bind]. rewrite Ea. cbn [bind].
  unfold sfi. rewrite read_in by lia. cbn [bind]. unfold begin. cbn [s_out]. rewrite !read_in by lia. change (Z.to_nat 0) with 0%nat. cbn [bind]. rewrite E, Nat.eqb_refl. destruct (Req_EM_T (tau 0%nat) 0); [|contradiction]. reflexivity.
Qed.
Print Assumptions C56_top_refuted.
(** A direction in which the beam travels through the first layer, downward: the code divides zero by zero, although the equation has a solution.
    So it does, upward and downward, if the diffuse light of the layer decays as the light in the direction does. *)
Theorem C56_resonance_refuted : forall lu d n_coef m solar g n umu ru ru0 once xs N levels j, sees d xs -> tame d m solar g -> (1 < n_coef)%nat -> lu_solver (order m) (lu (order m)) -> increasing N m levels -> 0 < umu j <= 1 ->
  (solar = true -> umu j * t_as0 d 0%nat = 1 -> levels (N - 1)%nat <> 0%nat -> two_stream_view lu d n_coef solar m g n umu ru ru0 once N levels None j true = No_number) /\
  (solar = false -> umu j * umu j * decay d 0%nat = 1 -> levels (N - 1)%nat <> 0%nat -> two_stream_view lu d n_coef solar m g n umu ru ru0 once N levels None j true = No_number) /\
  (solar = false -> umu j * umu j * decay d m = 1 -> levels 0%nat <> S m -> two_stream_view lu d n_coef solar m g n umu ru ru0 once N levels None j false = No_number).
Proof.
  intros lu d nc m solar g n umu ru ru0 once xs N lev j See T NC LU (N0 & Gr & Le) U. destruct (run_found lu d nc m solar g xs See T NC LU) as (ws & v & El & Ea & W & _). unfold two_stream_view. rewrite El. cbn [bind]. rewrite Ea. cbn [bind].
  assert (forall k down a1 b1 p c, (k <= m)%nat -> solar = false -> umu j * umu j * decay d k = 1 -> layer_call d nc solar m umu once j (t_F0 d) down ws v k a1 b1 p c = No_number) as Res.
  { intros k down a1 b1 p c Hk So E. destruct (W k Hk) as (P & Sq & _). assert (umu j * w_nu (ws k) = 1) as E1.
    { rewrite (decay_is d k (qx_ok d m solar g T)), <- Sq in E. assert (0 < umu j * w_nu (ws k)) by (apply Rmult_lt_0_compat; lra). assert ((umu j * w_nu (ws k)) * (umu j * w_nu (ws k)) = 1) by (rewrite <- E; ring). nra. }
    unfold layer_call. destruct (Nat.ltb_spec m k); [lia|]. rewrite view_phases_ok by first [assumption|apply (qx_ok d m solar g T)|apply (mu0_ok d m solar g T)]. cbn [bind]. unfold sfi_layer. rewrite So, E1. assert (1 - 1 = 0) as -> by ring.
    destruct down; rewrite over_ok by lra; cbn [bind]; [|rewrite over_ok by lra; cbn [bind]]; unfold over; destruct (Req_EM_T 0 0); try contradiction; reflexivity. }
  assert (forall q, (q < N)%nat -> (lev q <= lev (N - 1))%nat) as Last by (intros q Hq; destruct (Nat.eq_dec q (N - 1)) as [->|NE]; [lia|]; pose proof (Gr q (N - 1)%nat ltac:(lia) ltac:(lia)); lia).
  assert ((forall a1 b1 p c, layer_call d nc solar m umu once j (t_F0 d) true ws v 0 a1 b1 p c = No_number) -> lev (N - 1)%nat <> 0%nat -> sfi d nc solar m n umu once N lev None j true ws v 0 = No_number) as Down.
  { intros Bad Nz. unfold sfi. rewrite read_in by lia. replace (Z.to_nat (Z.of_nat N - 1)) with (N - 1)%nat by lia. cbn [bind]. unfold begin. cbn [s_out]. rewrite read_in by lia. cbn [bind]. change (Z.to_nat 0) with 0%nat. destruct (lev (N - 1)%nat) as [|c]; [lia|].
    destruct (Nat.eqb_spec 0 (lev 0%nat)); cbn [bind passes]; unfold pass; cbn [bind]; rewrite Bad; reflexivity. }
  refine (conj _ (conj _ _)).
  - intros So E Nz. apply Down; [|exact Nz]. intros a1 b1 p c. unfold layer_call. destruct (Nat.ltb_spec m 0); [lia|]. rewrite view_phases_ok by first [assumption|apply (qx_ok d m solar g T)|apply (mu0_ok d m solar g T)]. cbn [bind]. unfold sfi_layer. rewrite So, E. assert (1 - 1 = 0) as -> by ring.
    rewrite over_ok by lra. cbn [bind]. unfold over at 1. destruct (Req_EM_T 0 0); [reflexivity|contradiction].
  - intros So E Nz. apply Down; [|exact Nz]. intros. apply Res; [lia|exact So|exact E].
  - intros So E Nz. unfold sfi. rewrite read_in by lia. change (Z.to_nat 0) with 0%nat. cbn [bind]. pose proof (Le 0%nat N0). destruct (Nat.ltb_spec (S m) (lev 0%nat)); [lia|]. cbn [bind]. unfold begin. cbn [s_out]. rewrite read_in by lia. cbn [bind]. replace (S m - lev 0%nat)%nat with (S (m - lev 0%nat)) by lia.
    destruct (Nat.eqb_spec (S m) (lev (Z.to_nat (Z.of_nat N - 1)))); cbn [bind passes]; unfold pass; cbn [bind]; rewrite Res by first [lia|assumption]; reflexivity.
Qed.
Print Assumptions C56_resonance_refuted.

(** The hypotheses can be met: the two layers of C54's example, seen in the direction of cosine 1/5, and with a flux of one unit at depths too. *)
Lemma sample_clear : forall four solar, (four <= 1)%nat -> clear (sample four) 1 solar 1 (fun _ => 1 / 5).
Proof.
  intros four solar F j Hj. split; [lra|]. intros k Hk. assert (0 <= INR k <= 1) as B by (destruct k as [|[|k]]; [cbn; lra|cbn; lra|lia]). unfold decay. cbn [sample t_four t_qx t_omega t_coef t_as0]. split; [destruct (four =? 0)%nat; apply Rlt_not_eq; nra|intros _; split; lra].
Qed.
Lemma sample_from : forall four, (four <= 1)%nat -> exists xs, sees_from (sample four) 1 (fun _ => 1 / 5) true xs.
Proof.
  intros four F. destruct four as [|[|four]]; [| |lia].
  - eexists. exists (fun _ => zvec), zvec. eexists. eexists. split; [intros i Hi; reflexivity|]. split; reflexivity.
  - eexists. exists (fun _ => zvec), zvec. eexists. eexists. split; [intros i Hi; reflexivity|]. split; reflexivity.
Qed.
Example viewed : forall four, (four <= 1)%nat -> exists up down, two_stream_view (fun N a => Some (gauss N a)) (sample four) 2 true 1 (Some (1 / 2, 1 / 3)) 1 (fun _ => 1 / 5) (fun _ => 1 / 4) (fun _ => 1 / 7) true 3 (fun q => q) None 0 false = Answer up /\
  two_stream_view (fun N a => Some (gauss N a)) (sample four) 2 true 1 (Some (1 / 2, 1 / 3)) 1 (fun _ => 1 / 5) (fun _ => 1 / 4) (fun _ => 1 / 7) true 2 (fun q => q) (Some (fun _ => 1 / 2)) 0 true = Answer down /\ up 2%nat <> None /\ down 1%nat <> None.
Proof.
  intros four F. destruct (sample_from four F) as (xs & See). pose proof (sample_tame four true F) as T. pose proof (sample_clear four true F) as C.
  destruct (C56_levels (fun N a => Some (gauss N a)) (sample four) 2 1 true _ 1 _ (fun _ => 1 / 4) (fun _ => 1 / 7) true xs See T C ltac:(lia) (gauss_lu _)) as (Ip & Im & _ & L).
  destruct (C56_depths (fun N a => Some (gauss N a)) (sample four) 2 1 true _ 1 _ (fun _ => 1 / 4) (fun _ => 1 / 7) true xs See T C ltac:(lia) (gauss_lu _) eq_refl) as (Jp & Jm & _ & D).
  destruct (L 3%nat (fun q => q) 0%nat ltac:(refine (conj _ (conj _ _)); lia) ltac:(lia)) as (f & f2 & Ef & _ & Hf).
  destruct (D 2%nat (fun q => q) (fun _ => 1 / 2) 0%nat) as (_ & Dn); [refine (conj _ (conj _ _)); [lia|lia|]|lia|].
  { intros q Hq. split; [lia|]. cbn [sample t_ltau]. pose proof (pos_INR q). rewrite S_INR. lra. }
  destruct (Dn ltac:(left; lia)) as (h & Eh & Hh). exists f, h. refine (conj Ef (conj Eh (conj _ _))); [destruct (Hf 2%nat ltac:(lia)) as (-> & _)|rewrite (Hh 1%nat) by lia]; discriminate.
Qed.
