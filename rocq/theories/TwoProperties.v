(** C54: the radiances of the two-stream solver are those of the equation of transfer with one stream in each hemisphere, the same as those of the
    general solvers. *)
From Coq Require Import Reals Bool Arith List ZArith Lia Lra.
From Verif Require Import Base DeltaMSpec DeltaMProofs AddingModel AddingSpec AddingMat EigModel EigSpec EigMat EigProofs EigProperties AtmSpec AtmProperties BvpModel BvpSpec BvpProperties ScatModel GaussProofs TwoSpec TwoModel TwoProofs TwoLight.
Open Scope R_scope.

Lemma one_routines : forall m, routines 1 m false (fun k => gauss_rows k) eig1 gauss_band.
Proof. intros m. refine (conj (gauss_solver 1) (conj _ (conj eig1_ok (gauss_band_solver _ _ _)))). discriminate. Qed.
Lemma mode_size : forall d solar k w, wave_of d solar k w -> al d k + be d k < 0 -> w_Xp w * w_Xp w <> 1.
Proof.
  intros d solar k w (P & _ & _ & -> & _) L E. set (n := w_nu w) in *. set (a := al d k + be d k) in *. assert (n - a <> 0) as N by lra.
  assert ((n + a) * (n + a) = (n - a) * (n - a)) as E2.
  { replace ((n + a) * (n + a)) with ((n + a) / (n - a) * ((n + a) / (n - a)) * ((n - a) * (n - a))) by (field; exact N). rewrite E. ring. }
  nra.
Qed.
Lemma matrix_nonsingular : forall d m solar g xs ws a, sees d xs -> tame d m solar g -> (forall k, (k <= m)%nat -> wave_of d solar k (ws k)) -> matrix m g ws = Answer a -> nonsingular (order m) a.
Proof.
  intros d m solar g xs ws a See T H E. apply injective_nonsingular. intros v Z i Hi. pose proof (tame_dark d m solar g T) as Td.
  set (ws' := fun k => unlit (ws k)). assert (forall k, (k <= m)%nat -> wave_of d false k (ws' k)) as H' by (intros k Hk; apply (wave_unlit d solar), H; exact Hk).
  assert (matrix m g ws' = Answer a) as E' by exact E.
  assert (forall u, (forall r, (r < order m)%nat -> mv (order m) a u r = 0) -> atmosphere 1 m false false xs (reflector (reflection g)) zvec (constant (glint d false m g)) (two_p d ws' u) (two_m d ws' u)) as At.
  { intros u Hu. apply (solves_light d m false g xs See Td ws' u a H' E'). intros r Hr. rewrite Hu by exact Hr. reflexivity. }
  assert (forall r, (r < order m)%nat -> mv (order m) a zvec r = 0) as Z0 by (intros r Hr; unfold mv; apply total_zero; intros; unfold zvec; ring).
  pose proof (C48_light_unique 1 m _ _ _ false false xs (reflection g) zvec (constant (glint d false m g)) Nat.lt_0_1 (one_routines m) (is_sound d m false g xs See Td) _ _ _ _ (At v Z) (At zvec Z0)) as Same.
  assert (exists k, (k <= m)%nat /\ (i = 2 * k \/ i = 2 * k + 1)%nat) as (k & Hk & Ik).
  { unfold order in Hi. exists (i / 2)%nat. pose proof (Nat.div_mod i 2 ltac:(lia)). pose proof (Nat.mod_upper_bound i 2 ltac:(lia)). split; lia. }
  destruct (each_ok d m solar g T k Hk) as (C0 & W & Lt & Sh). destruct (slopes d k (qx_ok d m solar g T) W Sh) as (S1 & _).
  assert (ltau (xs k) = t_ltau d k) as LT by (destruct See as (y & y0 & Y & Y0 & _ & _ & ->); reflexivity).
  destruct (Same k 0%nat 0 Hk ltac:(lia) ltac:(rewrite LT; lra)) as (A1 & A2).
  destruct (ends_of d m false g Td ws' v k Hk (H' k Hk)) as (B1 & B2 & _). destruct (ends_of d m false g Td ws' zvec k Hk (H' k Hk)) as (B3 & B4 & _). rewrite B1, B3 in A1. rewrite B2, B4 in A2.
  pose proof (mode_size d solar k (ws k) (H k Hk) S1) as X. destruct (H k Hk) as (_ & _ & M1 & _ & L1 & _).
  unfold up0, dn0, ws', unlit, zvec in A1, A2. cbn [w_Xp w_Xm w_L w_Fp w_Fm] in A1, A2. rewrite M1 in A1, A2. assert (0 < w_L (ws k)) as PL by (rewrite L1; apply exp_pos).
  set (x := v (2 * k)%nat) in *. set (y := v (2 * k + 1)%nat) in *. set (X1 := w_Xp (ws k)) in *. set (L := w_L (ws k)) in *.
  assert (y * (L * (1 - X1 * X1)) = 0) as Ey by (assert (x = - (y * L * X1)) as Ex by lra; rewrite Ex in A1; lra).
  assert (y = 0) as Y0. { destruct (Rmult_integral _ _ Ey) as [|C]; [assumption|]. destruct (Rmult_integral _ _ C); [lra|]. exfalso. apply X. lra. }
  destruct Ik as [-> | ->]; [fold x|fold y; exact Y0]. rewrite Y0 in A2. lra.
Qed.
Lemma run_found : forall lu d n_coef m solar g xs, sees d xs -> tame d m solar g -> (1 < n_coef)%nat -> lu_solver (order m) (lu (order m)) ->
  exists ws v, layers d n_coef solar (S m) = Answer ws /\ amplitudes lu d solar m g ws = Answer v /\ (forall k, (k <= m)%nat -> wave_of d solar k (ws k)) /\
    atmosphere 1 m solar false xs (reflector (reflection g)) zvec (constant (glint d solar m g)) (two_p d ws v) (two_m d ws v).
Proof.
  intros lu d nc m solar g xs See T NC LU. destruct (layers_found d m solar g T nc NC (S m) ltac:(lia)) as (ws & E & H).
  assert (forall k, (k <= m)%nat -> wave_of d solar k (ws k)) as H' by (intros; apply H; lia).
  destruct (matrix_done m g ws) as (a & Ea & _). destruct (LU a (matrix_nonsingular d m solar g xs ws a See T H' Ea)) as (f & Ef & Hf).
  exists ws, (f (rhs d solar m g ws)). refine (conj E (conj _ (conj H' _))).
  - unfold amplitudes. rewrite Ea. cbn [bind]. rewrite Ef. reflexivity.
  - apply (solves_light d m solar g xs See T ws _ a H' Ea). intros r Hr. apply Hf. exact Hr.
Qed.
(** The light exists, and the solver returns it, at every level and at every depth. *)
Theorem C54_light : forall lu d n_coef m solar g xs, sees d xs -> tame d m solar g -> (1 < n_coef)%nat -> lu_solver (order m) (lu (order m)) ->
  exists Ip Im, atmosphere 1 m solar false xs (reflector (reflection g)) zvec (constant (glint d solar m g)) Ip Im /\
    (forall ii, (ii <= S m)%nat -> exists u v, two_stream_level lu d n_coef solar m g ii = Answer (u, v) /\
      ((ii <= m)%nat -> u = Ip ii 0%nat 0 /\ v = Im ii 0%nat 0) /\ (forall k, ii = S k -> u = Ip k 0%nat (t_ltau d k) /\ v = Im k 0%nat (t_ltau d k))) /\
    (forall ii t, (ii <= m)%nat -> 0 <= t <= t_ltau d ii -> two_stream_depth lu d n_coef solar m g ii t = Answer (Ip ii 0%nat t, Im ii 0%nat t)).
Proof.
  intros lu d nc m solar g xs See T NC LU. destruct (run_found lu d nc m solar g xs See T NC LU) as (ws & v & El & Ea & H & At).
  exists (two_p d ws v), (two_m d ws v). refine (conj At (conj _ _)).
  - intros ii Hii. unfold two_stream_level. rewrite El. cbn [bind]. rewrite Ea. cbn [bind]. unfold at_level. destruct (Nat.ltb_spec (S m) ii); [lia|].
    replace (ii * 2 * 1)%nat with (2 * ii)%nat by lia. replace (m * 2 * 1)%nat with (2 * m)%nat by lia.
    destruct (Nat.eqb_spec ii (S m)) as [->|NE]; cbn [negb]; eexists; eexists; (split; [reflexivity|]).
    + split; [lia|]. intros k Ek. assert (k = m) as -> by lia. destruct (ends_of d m solar g T ws v m (le_n m) (H m (le_n m))) as (_ & _ & -> & ->). unfold upL, dnL, Fp1, Fm1. split; ring.
    + assert (v (2 * ii)%nat * w_Xp (ws ii) + v (2 * ii + 1)%nat * w_L (ws ii) * w_Xm (ws ii) + w_Fp (ws ii) = two_p d ws v ii 0%nat 0 /\
        v (2 * ii)%nat * - w_Xm (ws ii) + v (2 * ii + 1)%nat * w_L (ws ii) * - w_Xp (ws ii) + w_Fm (ws ii) = two_m d ws v ii 0%nat 0) as (E1 & E2).
      { destruct (ends_of d m solar g T ws v ii ltac:(lia) (H ii ltac:(lia))) as (-> & -> & _). unfold up0, dn0. split; ring. }
      rewrite E1, E2. split; [intros _; split; reflexivity|]. intros k ->. destruct At as ((_ & J & _) & _). destruct (J k 0%nat ltac:(lia) ltac:(lia)) as (J1 & J2).
      assert (ltau (xs k) = t_ltau d k) as LT by (destruct See as (y & y0 & Y & Y0 & _ & _ & ->); reflexivity). rewrite LT in J1, J2. split; [symmetry; exact J2|exact J1].
  - intros ii t Hii Ht. unfold two_stream_depth. rewrite El. cbn [bind]. rewrite Ea. cbn [bind]. unfold at_depth. destruct (Nat.ltb_spec m ii); [lia|].
    replace (ii * 2 * 1)%nat with (2 * ii)%nat by lia. unfold two_p, two_m. rewrite Rminus_0_r. replace (- t * t_as0 d ii) with (- t_as0 d ii * t) by ring. f_equal. f_equal; ring.
Qed.
Print Assumptions C54_light.
(** There is no other light. *)
Theorem C54_unique : forall d m solar g xs, sees d xs -> tame d m solar g -> forall top bot Ip Im Ip' Im',
  atmosphere 1 m solar false xs (reflector (reflection g)) top bot Ip Im -> atmosphere 1 m solar false xs (reflector (reflection g)) top bot Ip' Im' -> same_light 1 m xs Ip Im Ip' Im'.
Proof. intros d m solar g xs See T top bot Ip Im Ip' Im' A A'. exact (C48_light_unique 1 m _ _ _ solar false xs (reflection g) top bot Nat.lt_0_1 (one_routines m) (is_sound d m solar g xs See T) _ _ _ _ A A'). Qed.
Print Assumptions C54_unique.
(** The solver of the boundary value problem returns the same numbers: it is given one stream, the phase matrices the scattering code makes of two
    coefficients and, from below, the reflected beam. *)
Theorem C54_general : forall lu solve eig gb d n_coef m solar g xs ii, sees d xs -> tame d m solar g -> (1 < n_coef)%nat -> lu_solver (order m) (lu (order m)) -> routines 1 m false solve eig gb -> (ii <= S m)%nat ->
  exists u v, bvp_level 1 solve eig gb m xs (reflection g) solar false zvec (constant (glint d solar m g)) ii = Ok (u, v) /\ two_stream_level lu d n_coef solar m g ii = Answer (u 0%nat, v 0%nat).
Proof.
  intros lu solve eig gb d nc m solar g xs ii See T NC LU Ro Hii. destruct (C54_light lu d nc m solar g xs See T NC LU) as (Ip & Im & At & Lv & _).
  destruct (C48_levels 1 m solve eig gb solar false xs (reflection g) zvec (constant (glint d solar m g)) Nat.lt_0_1 Ro (is_sound d m solar g xs See T)) as (Jp & Jm & At' & Lv').
  pose proof (C54_unique d m solar g xs See T _ _ _ _ _ _ At At') as Same. destruct (Lv ii Hii) as (u & v & E & L1 & L2). destruct (Lv' ii Hii) as (u' & v' & E' & L'). exists u', v'. refine (conj E' _). rewrite E. f_equal.
  destruct (L' 0%nat Nat.lt_0_1) as (L1' & L2').
  assert (forall k, (k <= m)%nat -> ltau (xs k) = t_ltau d k /\ 0 <= t_ltau d k) as LT.
  { intros k Hk. destruct (each_ok d m solar g T k Hk) as (_ & _ & P & _). split; [|exact P]. destruct See as (y & y0 & Y & Y0 & _ & _ & ->); reflexivity. }
  destruct ii as [|k].
  - destruct (L1 ltac:(lia)) as (-> & ->). destruct (L1' ltac:(lia)) as (-> & ->). destruct (LT 0%nat ltac:(lia)) as (LT1 & LT2). destruct (Same 0%nat 0%nat 0 ltac:(lia) ltac:(lia) ltac:(rewrite LT1; lra)) as (-> & ->). reflexivity.
  - destruct (L2 k eq_refl) as (-> & ->). destruct (L2' k eq_refl) as (-> & ->). destruct (LT k ltac:(lia)) as (LT1 & LT2). rewrite LT1. destruct (Same k 0%nat (t_ltau d k) ltac:(lia) ltac:(lia) ltac:(rewrite LT1; lra)) as (-> & ->). reflexivity.
Qed.
Print Assumptions C54_general.
(** With the abscissa of the normal quadrature, sqrt (1 / 3), nothing is amplified, whatever the albedo below one and whatever the asymmetry. *)
Theorem C54_normal : forall d k, t_qx d * t_qx d = 1 / 3 -> 0 <= t_omega d k < 1 -> Rabs (t_coef d k 1%nat) <= 3 -> share d k < 1.
Proof.
  intros d k Q W C. unfold share. rewrite Q. pose proof (Rabs_pos (t_coef d k 1%nat)) as P. destruct (t_four d =? 0)%nat.
  - assert (Rmax 1 (Rabs (t_coef d k 1%nat) * (1 / 3)) = 1) as -> by (apply Rmax_left; lra). lra.
  - nra.
Qed.
Print Assumptions C54_normal.
(** With that of the doubled quadrature, 1 / 2, this is so for the first order; for the second the root of a negative number is taken, as soon as the
    albedo times the coefficient exceeds 8 / 3. *)
Theorem C54_doubled : forall d k, t_qx d = 1 / 2 -> t_four d = 0%nat -> 0 <= t_omega d k < 1 -> Rabs (t_coef d k 1%nat) <= 3 -> share d k < 1.
Proof.
  intros d k Q F W C. unfold share. rewrite Q, F. cbn [Nat.eqb]. assert (Rmax 1 (Rabs (t_coef d k 1%nat) * (1 / 2 * (1 / 2))) = 1) as -> by (apply Rmax_left; lra). lra.
Qed.
Print Assumptions C54_doubled.
Lemma layers_stop : forall d nc solar k K, layer d nc solar k = No_number -> (forall j, (j < k)%nat -> exists w, layer d nc solar j = Answer w) -> (k < K)%nat -> layers d nc solar K = No_number.
Proof.
  intros d nc solar k K E B H. assert (forall j, (j <= k)%nat -> exists ws, layers d nc solar j = Answer ws) as C.
  { induction j as [|j IH]; intros Hj; [eexists; reflexivity|]. destruct (IH ltac:(lia)) as (ws & Ew). destruct (B j ltac:(lia)) as (w & Ej). cbn [layers]. rewrite Ew. cbn [bind]. rewrite Ej. eexists. reflexivity. }
  induction K as [|K IH]; [lia|]. cbn [layers]. destruct (Nat.eq_dec k K) as [->|NE]; [destruct (C K (le_n K)) as (ws & ->); cbn [bind]; rewrite E; reflexivity|]. rewrite IH by lia. reflexivity.
Qed.
Theorem C54_forward_refuted : forall d n_coef solar k, t_four d = 1%nat -> 0 < t_qx d < 1 -> 0 < t_mu0 d <= 1 -> (1 < n_coef)%nat -> 2 < t_omega d k * t_coef d k 1%nat * (1 - t_qx d * t_qx d) -> layer d n_coef solar k = No_number.
Proof.
  intros d nc solar k F Q M NC Big. unfold layer, coefficient. destruct (Nat.ltb_spec 1 nc); [|lia]. cbn [bind]. rewrite phases_ok by (try assumption; lia). cbn [bind]. cbv zeta.
  match goal with |- bind (root ?x) _ = _ => assert (x < 0) as N end; [|unfold root; destruct (Rlt_dec _ 0); [reflexivity|lra]].
  unfold pp, mp. rewrite F. cbn [Nat.eqb].
  match goal with |- ?x < 0 => replace x with ((2 - t_omega d k * t_coef d k 1%nat * (1 - t_qx d * t_qx d)) * (/ t_qx d * / t_qx d / 2)) by (field; lra) end.
  assert (0 < / t_qx d) as I by (apply Rinv_0_lt_compat; lra). assert (0 < / t_qx d * / t_qx d / 2) by (apply Rmult_lt_0_compat; [nra|lra]). nra.
Qed.
Print Assumptions C54_forward_refuted.
(** ... for a phase function that is possible, with the asymmetry parameter 0.95 *)
Example forward : exists d, t_four d = 1%nat /\ t_qx d = 1 / 2 /\ t_mu0 d = 1 / 2 /\ t_omega d 0%nat = 99 / 100 /\ t_coef d 0%nat 1%nat = 3 * (95 / 100) /\
  forall lu n_coef solar g, (1 < n_coef)%nat -> two_stream_level lu d n_coef solar 0 g 0 = No_number.
Proof.
  exists {| t_four := 1; t_qx := 1 / 2; t_F0 := 1; t_mu0 := 1 / 2; t_coef := fun _ l => match l with 0%nat => 1 | _ => 3 * (95 / 100) end; t_omega := fun _ => 99 / 100; t_ltau := fun _ => 1; t_as0 := fun _ => 2; t_atran := fun _ => 1; t_btran := fun _ => 1 |}.
  repeat (split; [reflexivity|]). intros lu nc solar g NC. unfold two_stream_level. rewrite (layers_stop _ nc solar 0 1); [reflexivity| |intros; lia|lia].
  apply C54_forward_refuted; cbn [t_four t_qx t_mu0 t_omega t_coef]; try lra; try lia.
Qed.
(** When the beam decays at the rate of the diffuse light there is a division by zero. *)
Theorem C54_resonance_refuted : forall d n_coef k, (t_four d <= 1)%nat -> 0 < t_qx d < 1 -> 0 < t_mu0 d <= 1 -> (1 < n_coef)%nat -> 0 <= t_omega d k -> share d k < 1 ->
  t_as0 d k * t_as0 d k = decay d k -> layer d n_coef true k = No_number.
Proof.
  intros d nc k F Q M NC W Sh Re. destruct (slopes d k Q W Sh) as (S1 & S2). unfold layer, coefficient. destruct (Nat.ltb_spec 1 nc); [|lia]. cbn [bind]. rewrite (phases_ok d k F Q M). cbn [bind]. cbv zeta.
  replace (-1 / t_qx d + (1 + (if (t_four d =? 0)%nat then 1 else 0)) / 4 / t_qx d * t_omega d k * pp d k) with (al d k) by (unfold al, cs; field; lra).
  replace (- ((1 + (if (t_four d =? 0)%nat then 1 else 0)) / 4 / t_qx d) * t_omega d k * mp d k) with (be d k) by (unfold be, cs; field; lra).
  rewrite decay_is in Re by exact Q. set (a := al d k) in *. set (b := be d k) in *. assert (0 < a * a - b * b) as P by nra. rewrite root_ok by lra. cbn [bind].
  assert (0 < sqrt (a * a - b * b)) as Pn by (apply sqrt_lt_R0; exact P). rewrite over_ok by lra. cbn [bind]. unfold over at 1. destruct (Req_EM_T _ 0) as [|N]; [reflexivity|]. exfalso. apply N. lra.
Qed.
Print Assumptions C54_resonance_refuted.
(** Without absorption the matrix of the first order is singular. *)
Theorem C54_conservative_refuted : forall d n_coef m solar g ws k, t_four d = 0%nat -> 0 < t_qx d < 1 -> (1 < n_coef)%nat -> (k <= m)%nat -> layers d n_coef solar (S m) = Answer ws -> t_omega d k = 1 ->
  exists a, matrix m g ws = Answer a /\ ~ nonsingular (order m) a.
Proof.
  intros d nc m solar g ws k F Q NC Hk El W. 
  assert (forall K ws, layers d nc solar K = Answer ws -> forall j, (j < K)%nat -> layer d nc solar j = Answer (ws j)) as Each.
  { clear. induction K as [|K IH]; intros ws E j Hj; [lia|]. cbn [layers] in E. destruct (layers d nc solar K) as [ws'| | |] eqn:E1; cbn [bind] in E; try discriminate. destruct (layer d nc solar K) as [w| | |] eqn:E2; cbn [bind] in E; try discriminate.
    injection E as <-. destruct (Nat.eqb_spec j K) as [->|NE]; [exact E2|]. apply IH; [reflexivity|lia]. }
  pose proof (Each _ _ El k ltac:(lia)) as Ek. clear Each El. destruct (matrix_done m g ws) as (a & Ea & D). exists a. split; [exact Ea|].
  assert (w_Xp (ws k) = -1 /\ w_Xm (ws k) = 1 /\ w_L (ws k) = 1) as (X1 & X2 & X3).
  { unfold layer, coefficient in Ek. destruct (Nat.ltb_spec 1 nc); [|lia]. cbn [bind] in Ek. unfold phases in Ek. rewrite F in Ek. cbn [Nat.eqb] in Ek. rewrite over_ok in Ek by lra. cbn [bind] in Ek. cbv zeta in Ek. rewrite W in Ek.
    set (al0 := -1 / t_qx d + 1 / 2 / t_qx d * 1 * (1 + t_coef d k 1%nat * (t_qx d * t_qx d))) in *. set (be0 := - (1 / 2 / t_qx d) * 1 * (1 - t_coef d k 1%nat * (t_qx d * t_qx d))) in *.
    assert (al0 * al0 - be0 * be0 = 0) as Z. { assert (al0 - be0 = 0) as Z1 by (unfold al0, be0; field; lra). replace (al0 * al0 - be0 * be0) with ((al0 + be0) * (al0 - be0)) by ring. rewrite Z1. ring. }
    rewrite Z in Ek. rewrite root_ok in Ek by lra. cbn [bind] in Ek. rewrite sqrt_0 in Ek. unfold over at 1 in Ek. destruct (Req_EM_T (0 - (al0 + be0)) 0) as [|N]; cbn [bind] in Ek; [discriminate|].
    replace (- 0 * t_ltau d k) with 0 in Ek by ring. rewrite exp_0 in Ek.
    assert ((0 + (al0 + be0)) / (0 - (al0 + be0)) = -1) as E1 by (field; lra). rewrite E1 in Ek. destruct solar.
    - unfold over in Ek. match type of Ek with context [Req_EM_T ?x 0] => destruct (Req_EM_T x 0) end; cbn [bind] in Ek; [discriminate|]. injection Ek as <-. repeat split.
    - injection Ek as <-. repeat split. }
  set (v := fun r => if (r =? 2 * k)%nat || (r =? 2 * k + 1)%nat then 1 else 0). intros (p & _ & P2).
  assert (forall j, v (2 * j)%nat = (if (j =? k)%nat then 1 else 0) /\ v (2 * j + 1)%nat = (if (j =? k)%nat then 1 else 0)) as V.
  { intros j. unfold v. split; repeat match goal with |- context [Nat.eqb ?a ?b] => destruct (Nat.eqb_spec a b); try lia end; reflexivity. }
  assert (forall j, up0 ws v j = 0 /\ dn0 ws v j = 0 /\ upL ws v j = 0 /\ dnL ws v j = 0) as Zero.
  { intros j. unfold up0, dn0, upL, dnL. destruct (V j) as (-> & ->). destruct (Nat.eqb_spec j k) as [->|NE]; [rewrite X1, X2, X3|]; repeat split; ring. }
  assert (forall r, (r < order m)%nat -> mv (order m) a v r = 0) as Av.
  { intros r Hr. unfold order in Hr. destruct (Nat.eq_dec r 0) as [->|N0]; [rewrite (row_top m g ws a v D); apply Zero|].
    assert (exists j, (r = 2 * j + 1 \/ r = 2 * j + 2)%nat) as (j & Hj).
    { exists ((r - 1) / 2)%nat. pose proof (Nat.div_mod (r - 1) 2 ltac:(lia)). pose proof (Nat.mod_upper_bound (r - 1) 2 ltac:(lia)). lia. }
    destruct (Zero j) as (_ & _ & Z3 & Z4). destruct (Zero (S j)) as (Z5 & Z6 & _). destruct (Nat.eq_dec r (2 * m + 1)) as [->|NL].
    - rewrite (row_last m g ws a v D). destruct (Zero m) as (_ & _ & -> & ->). ring.
    - destruct Hj as [-> | ->]; [rewrite (row_up m g ws a v j D ltac:(lia)), Z3, Z5|rewrite (row_down m g ws a v j D ltac:(lia)), Z4, Z6]; ring. }
  assert (v (2 * k)%nat = 0) as Bad.
  { assert (2 * k < order m)%nat as Hb by (unfold order; lia). rewrite <- (mv_ident (order m) v (2 * k) Hb). 
    assert (mv (order m) ident v (2 * k)%nat = mv (order m) (mmul (order m) p a) v (2 * k)%nat) as ->.
    { unfold mv. apply total_ext. intros c Hc. f_equal. unfold mmul. symmetry. apply P2; assumption. }
    rewrite <- mv_mul. unfold mv at 1. apply total_zero. intros c Hc. rewrite Av by exact Hc. ring. }
  destruct (V k) as (V1 & _). rewrite V1, Nat.eqb_refl in Bad. lra.
Qed.
Print Assumptions C54_conservative_refuted.
(** With arrays of one coefficient (or none) the code reads beyond their end. *)
Theorem C54_isotropic_refuted : forall lu d n_coef solar m g ii t, (n_coef <= 1)%nat -> two_stream_level lu d n_coef solar m g ii = Undefined /\ two_stream_depth lu d n_coef solar m g ii t = Undefined.
Proof.
  intros lu d nc solar m g ii t H. assert (forall K, layers d nc solar (S K) = Undefined) as E.
  { assert (forall k, layer d nc solar k = Undefined) as L by (intros k; unfold layer, coefficient; destruct (Nat.ltb_spec 1 nc); [lia|reflexivity]).
    induction K as [|K IH]; [cbn [layers bind]; rewrite L; reflexivity|]. replace (layers d nc solar (S (S K))) with (bind (layers d nc solar (S K)) (fun ws => bind (layer d nc solar (S K)) (fun w => Answer (fun i => if (i =? S K)%nat then w else ws i)))) by reflexivity. rewrite IH. reflexivity. }
  unfold two_stream_level, two_stream_depth. rewrite E. split; reflexivity.
Qed.
Print Assumptions C54_isotropic_refuted.

(** The hypotheses can be met: two layers above a surface that reflects, lit by a beam. *)
Definition sample (four : nat) : deck := {| t_four := four; t_qx := 1 / 2; t_F0 := 1; t_mu0 := 1 / 2; t_coef := fun k l => match l with 0%nat => 1 | _ => INR k end; t_omega := fun _ => 1 / 2; t_ltau := fun k => INR (S k);
  t_as0 := fun _ => 3; t_atran := fun k => exp (- (3) * INR (S k)); t_btran := fun k => exp (- (3) * INR k) |}.
Lemma sample_tame : forall four solar, (four <= 1)%nat -> tame (sample four) 1 solar (Some (1 / 2, 1 / 3)).
Proof.
  intros four solar F. refine (conj F (conj _ (conj _ (conj _ (conj _ _))))); cbn [sample t_qx t_mu0 t_as0 t_atran t_omega t_coef t_ltau]; try lra.
  - intros k Hk. refine (conj eq_refl (conj _ (conj (pos_INR (S k)) _))); [lra|]. unfold share. cbn [sample t_four t_qx t_omega t_coef]. assert (0 <= INR k <= 1) as B by (destruct k as [|[|k]]; [cbn; lra|cbn; lra|lia]). rewrite Rabs_pos_eq by lra.
    destruct (four =? 0)%nat; [rewrite Rmax_left by lra; lra|lra].
  - intros _ k Hk. refine (conj _ (conj _ eq_refl)); [lra|]. unfold decay. cbn [sample t_four t_qx t_omega t_coef]. assert (0 <= INR k <= 1) as B by (destruct k as [|[|k]]; [cbn; lra|cbn; lra|lia]).
    destruct (four =? 0)%nat; apply Rgt_not_eq; lra.
  - intros r r0 E. injection E as <- <-. lra.
Qed.
Lemma sample_seen : forall four, (four <= 1)%nat -> exists xs, sees (sample four) xs.
Proof.
  intros four F. destruct four as [|[|four]]; [| |lia].
  - eexists. exists zvec, zvec. eexists. eexists. split; [reflexivity|]. split; reflexivity.
  - eexists. exists zvec, zvec. eexists. eexists. split; [reflexivity|]. split; reflexivity.
Qed.
Lemma gauss_lu : forall N, lu_solver N (fun a => Some (gauss N a)).
Proof.
  intros N a (p & P1 & P2). eexists. split; [reflexivity|]. intros v r Hr. refine (gauss_solves N a _ v r Hr). clear v r Hr. intros v Z i Hi. rewrite <- (mv_ident N v i Hi).
  assert (mv N ident v i = mv N (mmul N p a) v i) as -> by (unfold mv; apply total_ext; intros c Hc; f_equal; unfold mmul; symmetry; apply P2; assumption).
  rewrite <- mv_mul. unfold mv at 1. apply total_zero. intros c Hc. rewrite Z by exact Hc. ring.
Qed.
Example works : forall four ii, (four <= 1)%nat -> (ii <= 2)%nat -> exists u v, two_stream_level (fun N a => Some (gauss N a)) (sample four) 2 true 1 (Some (1 / 2, 1 / 3)) ii = Answer (u, v).
Proof.
  intros four ii F Hii. destruct (sample_seen four F) as (xs & See). destruct (C54_light (fun N a => Some (gauss N a)) (sample four) 2 1 true _ xs See (sample_tame four true F) ltac:(lia) (gauss_lu _)) as (Ip & Im & _ & H & _).
  destruct (H ii Hii) as (u & v & E & _). exists u, v. exact E.
Qed.
