(** The kernels of the code are those of the literature. *)
From Coq Require Import Reals Lra List Arith Bool Lia.
From Verif Require Import BrdfSpec BrdfModel.
Open Scope R_scope.

Lemma nsqrt_ok : forall x, 0 <= x -> nsqrt x = Some (sqrt x).
Proof. intros x H. unfold nsqrt. destruct (Rle_dec 0 x); [reflexivity|contradiction]. Qed.
Lemma nacos_ok : forall x, -1 <= x <= 1 -> nacos x = Some (acos x).
Proof. intros x [H H']. unfold nacos. destruct (Rle_dec (-1) x); [|contradiction]. destruct (Rle_dec x 1); [reflexivity|contradiction]. Qed.
Lemma nasin_ok : forall x, -1 <= x <= 1 -> nasin x = Some (asin x).
Proof. intros x [H H']. unfold nasin. destruct (Rle_dec (-1) x); [|contradiction]. destruct (Rle_dec x 1); [reflexivity|contradiction]. Qed.
Lemma ndiv_ok : forall x y, y <> 0 -> ndiv x y = Some (x / y).
Proof. intros x y H. unfold ndiv. destruct (Req_EM_T y 0); [contradiction|reflexivity]. Qed.
Lemma ntan_ok : forall x, cos x <> 0 -> ntan x = Some (tan x).
Proof. intros x H. unfold ntan. destruct (Req_EM_T (cos x) 0); [contradiction|reflexivity]. Qed.
Lemma npow_ok : forall x y, 0 < x -> npow x y = Some (Rpower x y).
Proof. intros x y H. unfold npow. destruct (Rlt_dec 0 x); [reflexivity|contradiction]. Qed.

(** the angle of a direction *)
Definition ang (t : R) : angle := {| cos_t := cos t; sin_t := sin t; tan_t := tan t; tan_t2 := tan t * tan t |}.
Lemma sky_cos : forall t, from_sky t -> 0 < cos t.
Proof. intros t [A B]. pose proof PI_RGT_0. apply cos_gt_0; lra. Qed.
Lemma sky_sin : forall t, from_sky t -> 0 <= sin t <= 1.
Proof. intros t [A B]. pose proof PI_RGT_0. split; [apply sin_ge_0; lra|apply SIN_bound]. Qed.
Lemma sky_tan : forall t, from_sky t -> 0 <= tan t.
Proof. intros t H. unfold tan. apply Rmult_le_pos; [apply (sky_sin t H)|left; apply Rinv_0_lt_compat, (sky_cos t H)]. Qed.
Lemma cs : forall t, cos t * cos t + sin t * sin t = 1.
Proof. intro t. pose proof (sin2_cos2 t) as H. unfold Rsqr in H. lra. Qed.
Lemma angle_sky : forall t k, from_sky t -> angle_of (cos t) k = k (ang t).
Proof.
  intros t k H. unfold angle_of. pose proof (cs t) as E. pose proof (sky_sin t H). pose proof (sky_cos t H).
  assert (nsqrt (1 - cos t * cos t) = Some (sin t)) as ->.
  { rewrite nsqrt_ok by nra. f_equal. replace (1 - cos t * cos t) with (sin t * sin t) by lra. apply sqrt_square. lra. }
  cbn [bind]. rewrite ndiv_ok by lra. cbn [bind]. reflexivity.
Qed.

Section Pair.
Variables ti tr phi : R.
Hypothesis Hi : from_sky ti.
Hypothesis Hr : from_sky tr.
Notation x := (cos_phase phi ti tr).
Lemma phase_low : -1 < x.
Proof.
  unfold cos_phase. pose proof (sky_cos _ Hi). pose proof (sky_cos _ Hr). pose proof (sky_sin _ Hi). pose proof (sky_sin _ Hr). pose proof (COS_bound phi).
  assert (0 < cos ti * cos tr) by nra. assert (0 <= sin ti * sin tr <= 1) by nra. nra.
Qed.
Lemma phase_high : x <= 1.
Proof.
  unfold cos_phase. pose proof (sky_sin _ Hi). pose proof (sky_sin _ Hr). pose proof (COS_bound phi).
  assert (0 <= sin ti * sin tr) by nra. assert (sin ti * sin tr * cos phi <= sin ti * sin tr) by nra.
  pose proof (cos_minus ti tr). pose proof (COS_bound (ti - tr)). lra.
Qed.
Lemma phase_bound : -1 <= x <= 1. Proof. pose proof phase_low. pose proof phase_high. lra. Qed.
Lemma cos_phase_is : cos (phase ti tr phi) = x.
Proof. unfold phase. apply cos_acos, phase_bound. Qed.
Lemma phase_range : 0 <= phase ti tr phi < PI.
Proof.
  unfold phase. destruct (acos_bound x) as [A B]. split; [exact A|]. destruct B as [B|B]; [exact B|]. exfalso.
  pose proof cos_phase_is as E. unfold phase in E. rewrite B, cos_PI in E. pose proof phase_low. lra.
Qed.
Lemma half_cos : 0 < cos (phase ti tr phi / 2).
Proof. pose proof phase_range. pose proof PI_RGT_0. apply cos_gt_0; lra. Qed.
Lemma half_sin : 0 <= sin (phase ti tr phi / 2).
Proof. pose proof phase_range. pose proof PI_RGT_0. apply sin_ge_0; lra. Qed.
Lemma half_square : 2 * (cos (phase ti tr phi / 2) * cos (phase ti tr phi / 2)) = 1 + x.
Proof.
  rewrite <- cos_phase_is by assumption. set (y := phase ti tr phi). replace (cos y) with (cos (2 * (y / 2))) by (f_equal; field). rewrite cos_2a_cos. ring.
Qed.
End Pair.
Lemma gap_pos : forall a b c, 0 <= a * b -> -1 <= c <= 1 -> 0 <= a * a + b * b - 2 * a * b * c.
Proof.
  intros a b c H B. pose proof (Rle_0_sqr (a - b)) as Q. unfold Rsqr in Q. assert (a * b * c <= a * b) by nra. lra.
Qed.

Section Exact.
Variables (ti tr phi ph : R).
Hypothesis Hi : from_sky ti.
Hypothesis Hr : from_sky tr.
Hypothesis Hp : 0 <= phi <= PI.
Hypothesis Hh : ph = phi \/ ph = - phi.
Notation i := (ang ti).
Notation j := (ang tr).
Notation z := (azimuth_of phi).
Lemma pi_nz : PI <> 0. Proof. pose proof PI_RGT_0. lra. Qed.
Lemma roujean_exact : roujean i j z ph = Some (roujean_brdf ti tr phi).
Proof.
  unfold roujean. cbn [tan_t tan_t2 ang cos_p sin_p azimuth_of].
  assert ((if Rlt_dec ph 0 then -1 else 1) * ph = phi) as ->. { destruct (Rlt_dec ph 0) as [L|L], Hh as [->| ->]; lra. }
  pose proof (sky_tan _ Hi). pose proof (sky_tan _ Hr). pose proof (COS_bound phi).
  rewrite nsqrt_ok. 2:{ pose proof (gap_pos (tan ti) (tan tr) (cos phi) ltac:(nra) (COS_bound phi)). lra. }
  cbn [bind]. f_equal. unfold roujean_brdf, gap. rewrite <- (Rmult_assoc 2). field. apply pi_nz.
Qed.
Lemma ross_thin_exact : ross_thin i j z = Some (ross_thin_brdf ti tr phi).
Proof.
  unfold ross_thin. cbn [cos_t sin_t ang cos_p azimuth_of]. fold (cos_phase phi ti tr). pose proof (sky_cos _ Hi). pose proof (sky_cos _ Hr).
  rewrite nacos_ok by (apply phase_bound; assumption). cbn [bind]. rewrite ndiv_ok by nra. cbn [bind]. f_equal.
  unfold ross_thin_brdf. rewrite cos_phase_is by assumption. reflexivity.
Qed.
Lemma ross_thick_exact : ross_thick i j z = Some (ross_thick_brdf ti tr phi).
Proof.
  unfold ross_thick. cbn [cos_t sin_t ang cos_p azimuth_of]. fold (cos_phase phi ti tr). pose proof (sky_cos _ Hi). pose proof (sky_cos _ Hr).
  rewrite nacos_ok by (apply phase_bound; assumption). cbn [bind]. rewrite ndiv_ok by lra. cbn [bind]. f_equal.
  unfold ross_thick_brdf. rewrite cos_phase_is by assumption. reflexivity.
Qed.
Lemma cos_atan_pos : forall x, 0 < cos (atan x).
Proof. intro x. destruct (atan_bound x). apply cos_gt_0; lra. Qed.
Section Li.
Variable p : nat -> R.
Hypothesis Height : 0 <= p 1%nat.
Notation s := (secs ti tr (p 0%nat)).
Notation q := (1 - overlap ti tr phi (p 0%nat) (p 1%nat) / s).
Lemma secs_pos : 0 < s.
Proof.
  unfold secs, sec, crown. pose proof (Rinv_0_lt_compat _ (cos_atan_pos (p 0%nat * tan ti))). pose proof (Rinv_0_lt_compat _ (cos_atan_pos (p 0%nat * tan tr))). unfold Rdiv. lra.
Qed.
Lemma overlap_pos : 0 <= cos_overlap ti tr phi (p 0%nat) (p 1%nat).
Proof.
  unfold cos_overlap. apply Rmult_le_pos; [|left; apply Rinv_0_lt_compat, secs_pos]. apply Rmult_le_pos; [exact Height|apply sqrt_pos].
Qed.
Lemma overlap_small : overlap ti tr phi (p 0%nat) (p 1%nat) <= s / 2.
Proof.
  unfold overlap. pose proof secs_pos as Sp. pose proof overlap_pos as Op. destruct (Rlt_dec 1 _) as [L|L]; [lra|]. cbv zeta.
  set (c := cos_overlap ti tr phi (p 0%nat) (p 1%nat)) in *. pose proof PI_RGT_0.
  assert (0 <= acos c <= PI / 2) as [A B].
  { split; [apply acos_bound|]. rewrite acos_asin by lra. assert (0 <= asin c); [|lra]. destruct (Req_dec c 0) as [->|N]; [rewrite asin_0; lra|].
    destruct (asin_bound c) as [A B]. apply Rnot_lt_le. intro X. assert (sin (asin c) < 0) as Y by (apply sin_lt_0_var; lra). rewrite sin_asin in Y by lra. lra. }
  assert (0 <= sin (acos c) * cos (acos c)). { apply Rmult_le_pos; [apply sin_ge_0; lra|apply cos_ge_0; lra]. }
  assert (1 / PI * (acos c - sin (acos c) * cos (acos c)) <= 1 / 2).
  { apply (Rmult_le_reg_l PI); [lra|]. replace (PI * (1 / PI * (acos c - sin (acos c) * cos (acos c)))) with (acos c - sin (acos c) * cos (acos c)) by (field; lra). lra. }
  replace (s / 2) with (1 / 2 * s) by field. apply Rmult_le_compat_r; lra.
Qed.
Lemma li_exact : forall k, li i j z p k = k ((1 + cos_phase phi (crown (p 0%nat) ti) (crown (p 0%nat) tr)) * sec (crown (p 0%nat) tr)) q s.
Proof.
  intro k. unfold li. cbn [tan_t ang cos_p sin_p2 azimuth_of].
  pose proof (cos_atan_pos (p 0%nat * tan ti)) as Ci. pose proof (cos_atan_pos (p 0%nat * tan tr)) as Cr.
  rewrite !ndiv_ok by lra. cbn [bind]. fold (crown (p 0%nat) ti) (crown (p 0%nat) tr). fold (sec (crown (p 0%nat) ti)) (sec (crown (p 0%nat) tr)). fold s.
  pose proof secs_pos as Sp. rewrite !ndiv_ok by lra. cbn [bind].
  set (a := p 0%nat * tan ti). set (b := p 0%nat * tan tr).
  assert (a = tan (crown (p 0%nat) ti)) as Ea by (unfold crown; rewrite tan_atan; reflexivity).
  assert (b = tan (crown (p 0%nat) tr)) as Eb by (unfold crown; rewrite tan_atan; reflexivity).
  assert (0 <= a * b) as Pab.
  { unfold a, b. pose proof (sky_tan _ Hi). pose proof (sky_tan _ Hr). replace (p 0%nat * tan ti * (p 0%nat * tan tr)) with (p 0%nat * p 0%nat * (tan ti * tan tr)) by ring.
    apply Rmult_le_pos; [apply Rle_0_sqr|apply Rmult_le_pos; assumption]. }
  rewrite nsqrt_ok. 2:{ pose proof (gap_pos a b (cos phi) Pab (COS_bound phi)). lra. }
  cbn [bind].
  assert (sqrt (a * a + b * b - a * b * 2 * cos phi) = gap phi (crown (p 0%nat) ti) (crown (p 0%nat) tr)) as ->.
  { unfold gap. rewrite <- Ea, <- Eb. f_equal. ring. }
  set (g := gap phi (crown (p 0%nat) ti) (crown (p 0%nat) tr)).
  rewrite nsqrt_ok. 2:{ assert (0 <= g * g) by apply Rle_0_sqr. assert (0 <= a * b * sin phi * (a * b * sin phi)) by apply Rle_0_sqr. lra. }
  cbn [bind].
  assert (p 1%nat / s * sqrt (g * g + a * a * (b * b) * (sin phi * sin phi)) = cos_overlap ti tr phi (p 0%nat) (p 1%nat)) as ->.
  { unfold cos_overlap. fold g. rewrite <- Ea, <- Eb.
    replace (g * g + a * a * (b * b) * (sin phi * sin phi)) with (g * g + a * b * sin phi * (a * b * sin phi)) by ring. unfold Rdiv. ring. }
  assert ((1 + (cos (crown (p 0%nat) ti) * cos (crown (p 0%nat) tr) + sin (crown (p 0%nat) ti) * sin (crown (p 0%nat) tr) * cos phi)) / cos (crown (p 0%nat) tr) =
    (1 + cos_phase phi (crown (p 0%nat) ti) (crown (p 0%nat) tr)) * sec (crown (p 0%nat) tr)) as ->. { unfold cos_phase, sec, Rdiv. ring. }
  pose proof overlap_pos as Op. unfold overlap.
  destruct (Rlt_dec 1 (cos_overlap ti tr phi (p 0%nat) (p 1%nat))) as [L|L]; cbn [bind].
  - f_equal. field. lra.
  - set (c := cos_overlap ti tr phi (p 0%nat) (p 1%nat)) in *. rewrite nacos_ok by lra. cbn [bind]. rewrite nsqrt_ok by nra. cbn [bind]. f_equal.
    cbv zeta. rewrite sin_acos, cos_acos by lra. unfold Rsqr. field. split; first [apply pi_nz|lra].
Qed.
Lemma li_sparse_exact : li_sparse i j z p = Some (li_sparse_brdf ti tr phi (p 0%nat) (p 1%nat)).
Proof. unfold li_sparse. rewrite li_exact. f_equal. unfold li_sparse_brdf. pose proof secs_pos. field. lra. Qed.
Lemma li_dense_exact : li_dense i j z p = Some (li_dense_brdf ti tr phi (p 0%nat) (p 1%nat)).
Proof.
  unfold li_dense. rewrite li_exact. pose proof secs_pos. pose proof overlap_small.
  replace (q * s) with (s - overlap ti tr phi (p 0%nat) (p 1%nat)) by (field; lra). rewrite ndiv_ok by lra. reflexivity.
Qed.
End Li.
Lemma hapke_exact : forall p, p 0%nat <= 1 -> 0 < p 2%nat -> hapke i j z p = Some (hapke_brdf ti tr phi (p 0%nat) (p 1%nat) (p 2%nat)).
Proof.
  intros p A W. unfold hapke. cbn [cos_t sin_t ang cos_p azimuth_of]. fold (cos_phase phi ti tr). pose proof (sky_cos _ Hi). pose proof (sky_cos _ Hr).
  rewrite ndiv_ok by lra. cbn [bind]. rewrite nsqrt_ok by lra. cbn [bind]. pose proof (sqrt_pos (1 - p 0%nat)) as Sp.
  assert (0 < 1 + 2 * cos ti * sqrt (1 - p 0%nat)) by nra. assert (0 < 1 + 2 * cos tr * sqrt (1 - p 0%nat)) by nra.
  rewrite !ndiv_ok by lra. cbn [bind]. rewrite nacos_ok by (apply phase_bound; assumption). cbn [bind]. fold (phase ti tr phi).
  pose proof (half_cos ti tr phi Hi Hr) as Hc. pose proof (half_sin ti tr phi Hi Hr) as Hs. rewrite ntan_ok by lra. cbn [bind].
  assert (0 <= tan (phase ti tr phi / 2)). { unfold tan. apply Rmult_le_pos; [exact Hs|left; apply Rinv_0_lt_compat, Hc]. }
  rewrite ndiv_ok by lra. cbn [bind]. f_equal. unfold hapke_brdf. cbv zeta. rewrite cos_phase_is by assumption. field. repeat split; lra.
Qed.
Lemma rahman_exact : forall p, -1 < p 1%nat < 1 -> rahman i j z p = Some (rahman_brdf ti tr phi (p 0%nat) (p 1%nat) (p 2%nat)).
Proof.
  intros p G. unfold rahman. cbn [cos_t sin_t tan_t tan_t2 ang cos_p azimuth_of]. fold (cos_phase phi ti tr). pose proof (sky_cos _ Hi). pose proof (sky_cos _ Hr).
  pose proof (phase_bound ti tr phi Hi Hr) as B.
  rewrite npow_ok. 2:{ set (y := cos_phase phi ti tr) in *. set (g := p 1%nat) in *. assert (0 < (1 - g) * (1 - g)) by nra. assert (0 < (1 + g) * (1 + g)) by nra.
    destruct (Rle_dec 0 g); [assert (0 <= g * (1 + y)) by nra|assert (0 <= - g * (1 - y)) by nra]; nra. }
  cbn [bind]. rewrite ndiv_ok by (apply Rgt_not_eq; unfold Rpower; apply exp_pos). cbn [bind].
  pose proof (sky_tan _ Hi). pose proof (sky_tan _ Hr).
  rewrite nsqrt_ok. 2:{ pose proof (gap_pos (tan ti) (tan tr) (cos phi) ltac:(nra) (COS_bound phi)). lra. }
  cbn [bind].
  assert (sqrt (tan ti * tan ti + tan tr * tan tr - tan ti * tan tr * 2 * cos phi) = gap phi ti tr) as ->. { unfold gap. f_equal. ring. }
  assert (0 <= gap phi ti tr) by apply sqrt_pos. rewrite ndiv_ok by lra. cbn [bind].
  rewrite npow_ok. 2:{ apply Rmult_lt_0_compat; [nra|lra]. }
  cbn [bind]. f_equal. unfold rahman_brdf. cbv zeta. rewrite cos_phase_is by assumption. reflexivity.
Qed.
Lemma tilt_bound : 0 < (cos ti + cos tr) / (2 * cos (phase ti tr phi / 2)) <= 1.
Proof.
  pose proof (sky_cos _ Hi). pose proof (sky_cos _ Hr). pose proof (half_cos ti tr phi Hi Hr) as Hc. set (l := cos (phase ti tr phi / 2)) in *.
  pose proof (half_square ti tr phi Hi Hr) as E. fold l in E. split; [apply Rdiv_lt_0_compat; lra|].
  apply (Rmult_le_reg_r (2 * l)); [lra|]. unfold Rdiv. rewrite Rmult_assoc, Rinv_l by lra. rewrite Rmult_1_r, Rmult_1_l.
  apply Rsqr_incr_0; [|lra|lra]. unfold Rsqr. replace (2 * l * (2 * l)) with (2 * (2 * (l * l))) by ring. rewrite E. unfold cos_phase.
  pose proof (cs ti). pose proof (cs tr). pose proof (sky_sin _ Hi). pose proof (sky_sin _ Hr). pose proof (COS_bound phi).
  assert (0 <= sin ti * sin tr) by nra. assert (- (sin ti * sin tr) <= sin ti * sin tr * cos phi) by nra. pose proof (Rle_0_sqr (sin ti - sin tr)) as Q. unfold Rsqr in Q. nra.
Qed.
Lemma fresnel_exact : forall m c l, 1 <= m -> 0 < l <= 1 -> (forall t, l = cos t -> 0 <= sin t -> c = sqrt (m + (l * l - 1)) ->
  ((m * l - c) / (m * l + c) * ((m * l - c) / (m * l + c)) + (l - c) / (l + c) * ((l - c) / (l + c))) / 2 = fresnel (sqrt m) t).
Proof.
  intros m c l Hm Hl t El St Ec. unfold fresnel. cbv zeta. rewrite <- El. set (n := sqrt m).
  assert (n * n = m) as En by (apply sqrt_sqrt; lra). assert (1 <= n) as N1. { unfold n. rewrite <- sqrt_1. apply sqrt_le_1; lra. }
  pose proof (cs t) as Cs. rewrite <- El in Cs. assert (sin t <= 1) by (pose proof (SIN_bound t); lra).
  assert (-1 <= sin t / n <= 1) as B.
  { split; apply (Rmult_le_reg_r n); try lra; unfold Rdiv; rewrite Rmult_assoc, Rinv_l by lra; lra. }
  rewrite cos_asin by exact B. unfold Rsqr.
  assert (n * sqrt (1 - sin t / n * (sin t / n)) = c) as E.
  { rewrite Ec. rewrite <- (sqrt_square n) at 1 by lra. rewrite <- sqrt_mult.
    - f_equal. rewrite <- En. replace (l * l - 1) with (- (sin t * sin t)) by lra. field. lra.
    - nra.
    - replace (1 - sin t / n * (sin t / n)) with ((n * n - sin t * sin t) / (n * n)) by (field; lra). apply Rmult_le_pos; [nra|left; apply Rinv_0_lt_compat; nra]. }
  set (u := sqrt (1 - sin t / n * (sin t / n))) in *. assert (0 <= u) by apply sqrt_pos. rewrite <- E, <- En. field. split; nra.
Qed.
Lemma cox_munk_exact : forall p, 0 < p 0%nat -> 1 <= p 1%nat -> cox_munk i j z p = Some (cox_munk_brdf ti tr phi (p 0%nat) (sqrt (p 1%nat))).
Proof.
  intros p Sl N. unfold cox_munk. cbn [cos_t sin_t ang cos_p azimuth_of]. fold (cos_phase phi ti tr). pose proof (sky_cos _ Hi) as Ci. pose proof (sky_cos _ Hr) as Cr.
  rewrite nacos_ok by (apply phase_bound; assumption). cbn [bind]. fold (phase ti tr phi).
  pose proof (half_cos ti tr phi Hi Hr) as Hc. pose proof (half_sin ti tr phi Hi Hr) as Hs. set (l := cos (phase ti tr phi / 2)) in *.
  rewrite nsqrt_ok by nra. cbn [bind]. set (c := sqrt (p 1%nat + (l * l - 1))). assert (0 <= c) by apply sqrt_pos.
  rewrite !ndiv_ok by nra. cbn [bind].
  pose proof tilt_bound as T. fold l in T. set (g := (cos ti + cos tr) / (2 * l)) in *.
  assert ((cos ti + cos tr) / 2 / l = g) as -> by (unfold g; field; lra).
  rewrite nasin_ok by lra. cbn [bind].
  assert (PI / 2 - asin g = acos g) as -> by (symmetry; apply acos_asin; lra).
  rewrite ntan_ok by (rewrite cos_acos; lra). cbn [bind]. pose proof PI_RGT_0 as Pp.
  assert (0 < 4 * (cos ti * cos tr) * PI * p 0%nat * (g * g * (g * g))) as D.
  { assert (0 < cos ti * cos tr) by nra. assert (0 < g * g) by nra. assert (0 < g * g * (g * g)) by nra. assert (0 < PI * p 0%nat) by nra.
    replace (4 * (cos ti * cos tr) * PI * p 0%nat * (g * g * (g * g))) with (4 * (cos ti * cos tr) * ((PI * p 0%nat) * (g * g * (g * g)))) by ring.
    apply Rmult_lt_0_compat; [lra|]. apply Rmult_lt_0_compat; assumption. }
  rewrite !ndiv_ok by lra. cbn [bind]. f_equal. unfold cox_munk_brdf, tilt. fold l. fold g. rewrite cos_acos by lra.
  rewrite (fresnel_exact (p 1%nat) c l N) with (t := phase ti tr phi / 2); [|split; [exact Hc|apply COS_bound]|reflexivity|exact Hs|reflexivity].
  f_equal. field. repeat split; lra.
Qed.
End Exact.

(** The shape of a kernel of the handle *)
Definition shape_of (e : entry) : option shape :=
  let p := params e in
  match kind e with
  | Roujean => Some S_roujean
  | Li_sparse => Some (S_li_sparse (p 0%nat) (p 1%nat))
  | Li_dense => Some (S_li_dense (p 0%nat) (p 1%nat))
  | Ross_thin => Some S_ross_thin
  | Ross_thick => Some S_ross_thick
  | Hapke => Some (S_hapke (p 0%nat) (p 1%nat) (p 2%nat))
  | Rahman => Some (S_rahman (p 0%nat) (p 1%nat) (p 2%nat))
  | Cox_munk => Some (S_cox_munk (p 0%nat) (sqrt (p 1%nat)))
  | Lambertian | Direct_and_diffuse | User_defined _ _ => None
  end.
Theorem value_exact : forall qx kqx g e v s ti tr, shape_of e = Some s -> sensible s -> from_sky ti -> from_sky tr ->
  qx (from_dir (spot v)) = cos ti -> qx (to_dir (spot v)) = cos tr -> 0 <= kqx (point v) <= PI -> azim v = kqx (point v) \/ azim v = - kqx (point v) ->
  value qx kqx g e v = Some (brdf s ti tr (kqx (point v))).
Proof.
  intros qx kqx g e v s ti tr Sh Se Hi Hr Qi Qr P A. unfold shape_of in Sh. unfold value. rewrite Qi, Qr.
  destruct (kind e) eqn:K; cbv beta zeta in Sh; try discriminate; injection Sh as <-; cbn [sensible brdf] in *; rewrite !angle_sky by assumption.
  - apply roujean_exact; assumption.
  - apply li_sparse_exact; assumption.
  - apply li_dense_exact; assumption.
  - apply ross_thin_exact; assumption.
  - apply ross_thick_exact; assumption.
  - destruct Se. apply hapke_exact; assumption.
  - apply rahman_exact; assumption.
  - destruct Se as [S1 S2]. apply cox_munk_exact; try assumption. destruct (Rle_dec 1 (params e 1%nat)) as [|L]; [assumption|]. exfalso.
    apply Rnot_le_lt in L. destruct (Rle_dec 0 (params e 1%nat)) as [Z|Z]; [|rewrite sqrt_neg_0 in S2 by lra; lra].
    assert (sqrt (params e 1%nat) < sqrt 1) by (apply sqrt_lt_1; lra). rewrite sqrt_1 in *. lra.
Qed.
