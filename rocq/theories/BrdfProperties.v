(** C51: the surface. *)
From Coq Require Import Reals Lra List Arith Bool Lia.
From Verif Require Import BrdfSpec BrdfModel BrdfKernels BrdfProofs BrdfTheorems.
Import ListNotations.
Open Scope R_scope.

(** The reflection vector for the direct light (or any one direction of incidence): the coefficient of the cosine series of what the kernels of the
    literature reflect together, for the intensity; nothing for the other Stokes components. *)
Theorem C51_vector : forall qx nk kqx kqw g n_derivs derivs es ts i_offset n j_offset old m i s,
  Forall2 (describes g) es ts -> solar_surface es m = true ->
  (forall k, (k < nk)%nat -> 0 <= kqx k <= PI) -> 0 < qx j_offset <= 1 -> (forall i, (i < n)%nat -> 0 < qx (i_offset + i)%nat <= 1) -> (i < n)%nat ->
  ref_vec nk kqx kqw m (flag es) (kf (build qx nk kqx g n_derivs derivs es (vec_cells i_offset n j_offset) old)) i s =
  Some (if (s =? 0)%nat then surface nk kqx kqw m (acos (qx j_offset)) (acos (qx (i_offset + i)%nat)) ts else 0).
Proof.
  intros qx nk kqx kqw g n_derivs derivs es ts io n jo old m i s D S0 Hk Hj Hi Ni. unfold ref_vec. destruct (s =? 0)%nat; [|reflexivity].
  pose (c := {| at_row := i; at_col := 0; to_dir := io + i; from_dir := jo |}).
  refine (reflects qx nk kqx kqw g n_derivs derivs Hk es ts (vec_cells io n jo) c old m D (vec_nodup io n jo) _ _ S0).
  - unfold vec_cells. apply in_map_iff. exists i. split; [reflexivity|]. apply in_seq. lia.
  - split; [exact Hj|apply Hi, Ni].
Qed.
Print Assumptions C51_vector.

(** The reflection matrix: the same times the weights of the integral over the incident light. *)
Theorem C51_matrix : forall qx qw nk kqx kqw g n_derivs derivs es ts i_offset n1 j_offset n2 old m qf i j s t,
  Forall2 (describes g) es ts -> solar_surface es m = true ->
  (forall k, (k < nk)%nat -> 0 <= kqx k <= PI) ->
  (forall i, (i < n1)%nat -> 0 < qx (i_offset + i)%nat <= 1) -> (forall j, (j < n2)%nat -> 0 < qx (j_offset + j)%nat <= 1) -> (i < n1)%nat -> (j < n2)%nat ->
  ref_mat nk kqx kqw m (flag es) qf qx qw j_offset (kf (build qx nk kqx g n_derivs derivs es (mat_cells i_offset n1 j_offset n2) old)) i j s t =
  Some (if ((s =? 0)%nat && (t =? 0)%nat)%bool
        then surface nk kqx kqw m (acos (qx (j_offset + j)%nat)) (acos (qx (i_offset + i)%nat)) ts *
             ((if (m =? 0)%nat then 2 else 1) * qf * (qx (j_offset + j)%nat * qw (j_offset + j)%nat)) else 0).
Proof.
  intros qx qw nk kqx kqw g n_derivs derivs es ts io n1 jo n2 old m qf i j s t D S0 Hk Hi Hj Ni Nj. unfold ref_mat. destruct (_ && _)%bool; [|reflexivity].
  pose (c := {| at_row := i; at_col := j; to_dir := io + i; from_dir := jo + j |}).
  assert (In c (mat_cells io n1 jo n2)) as Hc. { unfold mat_cells. apply in_flat_map. exists i. split; [apply in_seq; lia|]. apply in_map_iff. exists j. split; [reflexivity|apply in_seq; lia]. }
  pose proof (reflects qx nk kqx kqw g n_derivs derivs Hk es ts (mat_cells io n1 jo n2) c old m D (mat_nodup io n1 jo n2) Hc (conj (Hj j Nj) (Hi i Ni)) S0) as E.
  cbn [at_row at_col to_dir from_dir c] in E. destruct (component _ _ _ _ _ _) as [w|]; [|discriminate]. cbn [nmul bind] in *. injection E as E. f_equal.
  rewrite <- E. unfold zeroth. destruct (m =? 0)%nat; ring.
Qed.
Print Assumptions C51_matrix.

Lemma flag_time : forall y x ks, flag (map (at_time y) ks) = flag (map (at_time x) ks).
Proof. intros y x ks. induction ks as [|k ks IH]; [reflexivity|]. unfold flag in *. cbn [map existsb]. rewrite IH. reflexivity. Qed.
(** The derivatives of the vector, for the lists of kernels that [served] describes: Lambertian, direct-and-diffuse and user-defined kernels in any order,
    and the others with constant parameters as long as the last of the former in front of them is Lambertian. *)
Theorem C51_vector_derivs : forall qx nk kqx kqw g n_derivs derivs l x ks Ts i_offset n j_offset old m i,
  served g l x false ks Ts -> (l < n_derivs)%nat -> derivs l = true -> solar_surface (map (at_time x) ks) m = true ->
  (forall k, (k < nk)%nat -> 0 <= kqx k <= PI) -> 0 < qx j_offset <= 1 -> (forall i, (i < n)%nat -> 0 < qx (i_offset + i)%nat <= 1) -> (i < n)%nat ->
  exists F d, (forall y, ref_vec nk kqx kqw m (flag (map (at_time y) ks)) (kf (build qx nk kqx g n_derivs derivs (map (at_time y) ks) (vec_cells i_offset n j_offset) old)) i 0 = Some (F y)) /\
    derivable_pt_lim F x d /\
    ref_vec nk kqx kqw m (flag (map (at_time x) ks)) (kf_l (build qx nk kqx g n_derivs derivs (map (at_time x) ks) (vec_cells i_offset n j_offset) old) l) i 0 = Some d.
Proof.
  intros qx nk kqx kqw g n_derivs derivs l x ks Ts io n jo old m i Sv Hl Hd S0 Hk Hj Hi Ni.
  pose (c := {| at_row := i; at_col := 0; to_dir := io + i; from_dir := jo |}).
  assert (In c (vec_cells io n jo)) as Hc by (unfold vec_cells; apply in_map_iff; exists i; split; [reflexivity|apply in_seq; lia]).
  destruct (reflects_l qx nk kqx kqw g n_derivs derivs Hk l x ks Ts (vec_cells io n jo) c old m Sv Hl Hd (vec_nodup io n jo) Hc (conj Hj (Hi i Ni)) S0) as (d & D1 & D2).
  exists (fun y => surface nk kqx kqw m (acos (qx jo)) (acos (qx (io + i)%nat)) (map (fun T => T y) Ts)), d. refine (conj _ (conj D1 D2)).
  intro y. apply (C51_vector qx nk kqx kqw g n_derivs derivs _ _ io n jo old m i 0); try assumption; [exact (served_describes g l x false ks Ts y Sv)|].
  unfold solar_surface in *. rewrite (flag_time y x). destruct ks; exact S0.
Qed.
Print Assumptions C51_vector_derivs.

(** The derivatives of the matrix. *)
Theorem C51_matrix_derivs : forall qx qw nk kqx kqw g n_derivs derivs l x ks Ts i_offset n1 j_offset n2 old m qf i j,
  served g l x false ks Ts -> (l < n_derivs)%nat -> derivs l = true -> solar_surface (map (at_time x) ks) m = true ->
  (forall k, (k < nk)%nat -> 0 <= kqx k <= PI) ->
  (forall i, (i < n1)%nat -> 0 < qx (i_offset + i)%nat <= 1) -> (forall j, (j < n2)%nat -> 0 < qx (j_offset + j)%nat <= 1) -> (i < n1)%nat -> (j < n2)%nat ->
  exists F d, (forall y, ref_mat nk kqx kqw m (flag (map (at_time y) ks)) qf qx qw j_offset
      (kf (build qx nk kqx g n_derivs derivs (map (at_time y) ks) (mat_cells i_offset n1 j_offset n2) old)) i j 0 0 = Some (F y)) /\
    derivable_pt_lim F x d /\
    ref_mat nk kqx kqw m (flag (map (at_time x) ks)) qf qx qw j_offset
      (kf_l (build qx nk kqx g n_derivs derivs (map (at_time x) ks) (mat_cells i_offset n1 j_offset n2) old) l) i j 0 0 = Some d.
Proof.
  intros qx qw nk kqx kqw g n_derivs derivs l x ks Ts io n1 jo n2 old m qf i j Sv Hl Hd S0 Hk Hi Hj Ni Nj.
  pose (c := {| at_row := i; at_col := j; to_dir := io + i; from_dir := jo + j |}).
  assert (In c (mat_cells io n1 jo n2)) as Hc. { unfold mat_cells. apply in_flat_map. exists i. split; [apply in_seq; lia|]. apply in_map_iff. exists j. split; [reflexivity|apply in_seq; lia]. }
  destruct (reflects_l qx nk kqx kqw g n_derivs derivs Hk l x ks Ts (mat_cells io n1 jo n2) c old m Sv Hl Hd (mat_nodup io n1 jo n2) Hc (conj (Hj j Nj) (Hi i Ni)) S0) as (d & D1 & D2).
  pose (b := (if (m =? 0)%nat then 2 else 1) * qf * (qx (jo + j)%nat * qw (jo + j)%nat)).
  exists (fun y => surface nk kqx kqw m (acos (qx (jo + j)%nat)) (acos (qx (io + i)%nat)) (map (fun T => T y) Ts) * b), (d * b). refine (conj _ (conj _ _)).
  - intro y. apply (C51_matrix qx qw nk kqx kqw g n_derivs derivs _ _ io n1 jo n2 old m qf i j 0 0); try assumption; [exact (served_describes g l x false ks Ts y Sv)|].
    unfold solar_surface in *. rewrite (flag_time y x). destruct ks; exact S0.
  - apply dl_mult_const, D1.
  - unfold ref_mat. cbn [Nat.eqb andb]. cbn [at_row at_col to_dir from_dir c] in D2. destruct (component _ _ _ _ _ _) as [w|]; [|discriminate]. cbn [nmul bind] in *. injection D2 as D2. f_equal.
    rewrite <- D2. unfold b, zeroth. destruct (m =? 0)%nat; ring.
Qed.
Print Assumptions C51_matrix_derivs.

(** Reciprocity: without Li kernels and without user-defined ones, exchanging the directions gives the same, apart from the weights. *)
Definition reciprocal (e : entry) : Prop := match kind e with Li_sparse | Li_dense | User_defined _ _ => False | _ => True end.
Theorem C51_reciprocal : forall qx qw nk kqx kqw n_derivs derivs es ts n old m qf i j,
  Forall2 (describes QQ) es ts -> Forall reciprocal es -> solar_surface es m = true ->
  (forall k, (k < nk)%nat -> 0 <= kqx k <= PI) -> (forall i, (i < n)%nat -> 0 < qx i <= 1) -> (i < n)%nat -> (j < n)%nat ->
  let R := fun i j => ref_mat nk kqx kqw m (flag es) qf qx qw 0 (kf (build qx nk kqx QQ n_derivs derivs es (mat_cells 0 n 0 n) old)) i j 0 0 in
  nmul (R i j) (Some (qx i * qw i)) = nmul (R j i) (Some (qx j * qw j)) /\ R i j <> None.
Proof.
  intros qx qw nk kqx kqw n_derivs derivs es ts n old m qf i j D Rc S0 Hk Hq Ni Nj R.
  assert (forall i j, (i < n)%nat -> (j < n)%nat -> R i j = Some (surface nk kqx kqw m (acos (qx j)) (acos (qx i)) ts * ((if (m =? 0)%nat then 2 else 1) * qf * (qx j * qw j)))) as E.
  { intros a b Na Nb. exact (C51_matrix qx qw nk kqx kqw QQ n_derivs derivs es ts 0 n 0 n old m qf a b 0 0 D S0 Hk Hq Hq Na Nb). }
  rewrite !E by assumption. split; [|discriminate]. cbn [nmul bind]. f_equal. rewrite (surface_swap nk kqx kqw m (acos (qx i))); [ring|].
  clear -D Rc. induction D as [|e t es ts D Ds IH]; [constructor|]. inversion Rc as [|? ? R1 R2]; subst. constructor; [|apply IH, R2].
  destruct D as [K|K|s Sh Se|f fl F K X]; try exact I.
  - intros a b p. apply brdf_swap. unfold shape_of in Sh. unfold reciprocal in R1. destruct (kind e); try discriminate; try contradiction; injection Sh as <-; exact I.
  - unfold reciprocal in R1. rewrite K in R1. destruct R1.
Qed.
Print Assumptions C51_reciprocal.

(** The Li kernels are not reciprocal: exchanging the directions changes them by the difference of the secants. *)
Theorem C51_li_reciprocity_refuted : exists b h ti tr phi, sensible (S_li_sparse b h) /\ from_sky ti /\ from_sky tr /\ 0 <= phi <= PI /\
  brdf (S_li_sparse b h) ti tr phi <> brdf (S_li_sparse b h) tr ti phi.
Proof.
  pose proof PI_RGT_0 as Pp. exists 1, 2, 0, (PI / 4), 0. refine (conj _ (conj _ (conj _ (conj _ _)))); try (cbn; unfold from_sky; lra).
  cbn [brdf]. unfold li_sparse_brdf. rewrite (overlap_swap 0), (secs_swap 0), (phase_swap (crown 1 0)).
  assert (crown 1 0 = 0) as -> by (unfold crown; rewrite tan_0, Rmult_0_r; apply atan_0).
  assert (crown 1 (PI / 4) = PI / 4) as -> by (unfold crown; rewrite Rmult_1_l; apply atan_tan; lra).
  set (a := overlap _ _ _ _ _ - _). unfold cos_phase, sec. rewrite cos_0, sin_0.
  assert (0 < cos (PI / 4)) by (apply cos_gt_0; lra). assert (cos (PI / 4) < 1) by (rewrite <- cos_0; apply cos_decreasing_1; lra).
  assert (1 < 1 / cos (PI / 4)). { apply (Rmult_lt_reg_r (cos (PI / 4))); [lra|]. unfold Rdiv. rewrite Rmult_assoc, Rinv_l by lra. lra. }
  set (u := cos (PI / 4)) in *. set (v := 1 / u) in *. intro E.
  assert (1 / 2 * (1 + (u * 1 + sin (PI / 4) * 0 * 1)) * v = 1 / 2 * (1 + (u * 1 + sin (PI / 4) * 0 * 1)) * (1 / 1)) as E' by lra. nra.
Qed.
Print Assumptions C51_li_reciprocity_refuted.

(** A Lambertian surface, of any number of kernels: the light that comes down is reflected with the sum of the amplitudes as its albedo, exactly, whatever the
    quadrature. *)
Definition albedo (es : list entry) : R := fold_right (fun e s => ampfac e + s) 0 es.
Lemma flag_flat : forall es, Forall (fun e => kind e = Lambertian) es -> flag es = false.
Proof. intros es H. induction H as [|e es H Hs IH]; [reflexivity|]. unfold flag in *. cbn [existsb]. rewrite H, IH. reflexivity. Qed.
Lemma describes_flat : forall g es, Forall (fun e => kind e = Lambertian) es -> Forall2 (describes g) es (map (fun e => Flat (ampfac e)) es).
Proof. intros g es H. induction H as [|e es H Hs IH]; cbn [map]; constructor; [apply d_lambertian, H|exact IH]. Qed.
Lemma surface_flat : forall nk kqx kqw ti tr es, surface nk kqx kqw 0 ti tr (map (fun e => Flat (ampfac e)) es) = albedo es.
Proof. intros. induction es as [|e es IH]; [reflexivity|]. cbn [map surface List.fold_right albedo fold_right]. unfold surface, albedo in IH. rewrite IH. reflexivity. Qed.
Lemma upto_ext : forall n f g, (forall i, (i < n)%nat -> f i = g i) -> upto n f = upto n g.
Proof. intros n f g H. rewrite !upto_sum. apply sum_ext. intros i Hi. apply H. apply in_seq in Hi. lia. Qed.
Lemma upto_scale : forall n c f, upto n (fun i => c * f i) = c * upto n f.
Proof. intros. rewrite !upto_sum. apply sum_scale. Qed.
Lemma solar_any : forall e es, solar_surface (e :: es) 0 = true. Proof. reflexivity. Qed.
Theorem C51_lambertian_albedo : forall qx qw nk kqx kqw n_derivs derivs es n old,
  es <> [] -> Forall (fun e => kind e = Lambertian) es ->
  (forall k, (k < nk)%nat -> 0 <= kqx k <= PI) -> (forall i, (i < n)%nat -> 0 < qx i <= 1) -> upto n (fun i => qx i * qw i) <> 0 ->
  exists r, (forall i j, (i < n)%nat -> (j < n)%nat ->
      ref_mat nk kqx kqw 0 (flag es) (quad_factor n qx qw) qx qw 0 (kf (build qx nk kqx QQ n_derivs derivs es (mat_cells 0 n 0 n) old)) i j 0 0 = Some (r i j)) /\
    forall I : nat -> R, upto n (fun i => qx i * qw i * upto n (fun j => r i j * I j)) = albedo es * upto n (fun j => qx j * qw j * I j).
Proof.
  intros qx qw nk kqx kqw n_derivs derivs es n old Ne La Hk Hq Hs. set (qf := quad_factor n qx qw).
  assert (solar_surface es 0 = true) as S0 by (destruct es; [contradiction|reflexivity]).
  exists (fun i j => albedo es * (2 * qf * (qx j * qw j))). split.
  - intros i j Ni Nj. rewrite <- (surface_flat nk kqx kqw (acos (qx j)) (acos (qx i)) es).
    exact (C51_matrix qx qw nk kqx kqw QQ n_derivs derivs es _ 0 n 0 n old 0 qf i j 0 0 (describes_flat QQ es La) S0 Hk Hq Hq Ni Nj).
  - intro I. set (f := upto n (fun j => qx j * qw j * I j)).
    rewrite (upto_ext n _ (fun i => albedo es * (2 * qf) * f * (qx i * qw i))).
    2:{ intros i _. rewrite (upto_ext n _ (fun j => albedo es * (2 * qf) * (qx j * qw j * I j))) by (intros; ring). rewrite upto_scale. unfold f. ring. }
    rewrite upto_scale. assert (2 * qf * upto n (fun i => qx i * qw i) = 1) as E; [|transitivity (albedo es * f * (2 * qf * upto n (fun i => qx i * qw i))); [ring|rewrite E; ring]].
    unfold qf, quad_factor. rewrite sum_fold, Rplus_0_l, <- upto_sum. field. exact Hs.
Qed.
Print Assumptions C51_lambertian_albedo.

(** The other kernels write no derivatives: with one of them in front, every derivative is made of what nothing has written, also those of amplitudes. *)
Theorem C51_derivs_refuted : forall qx nk kqx kqw g n_derivs derivs l e es s i_offset n j_offset old m i,
  shape_of e = Some s -> (0 < nk)%nat -> (l < n_derivs)%nat -> derivs l = true -> (i < n)%nat ->
  ref_vec nk kqx kqw m (flag (e :: es)) (kf_l (build qx nk kqx g n_derivs derivs (e :: es) (vec_cells i_offset n j_offset) old) l) i 0 = None.
Proof.
  intros qx nk kqx kqw g n_derivs derivs l e es s io n jo old m i Sh N Hl Hd Ni. unfold ref_vec. cbn [Nat.eqb].
  pose (c := {| at_row := i; at_col := 0; to_dir := io + i; from_dir := jo |}).
  assert (In c (vec_cells io n jo)) as Hc by (unfold vec_cells; apply in_map_iff; exists i; split; [reflexivity|apply in_seq; lia]).
  pose proof (silent_l qx nk kqx kqw g n_derivs derivs l e es s (vec_cells io n jo) c old m Sh N Hl Hd (vec_nodup io n jo) Hc) as E. cbn [at_row at_col c] in E. rewrite E. reflexivity.
Qed.
Print Assumptions C51_derivs_refuted.

(** Behind a direct-and-diffuse kernel they take its derivative for theirs: the surface moves by 1 and the derivative says 2. *)
Definition dark : nat -> R := fun _ => 0.
Definition moving : list track :=
  [ {| track_kind := Direct_and_diffuse; amp := fun _ => 1; amp_l := dark; par := fun y _ => y; par_l := fun _ _ => 1 |};
    {| track_kind := Ross_thin; amp := fun _ => 1; amp_l := dark; par := fun _ => dark; par_l := fun _ => dark |} ].
Definition silent_track : track := {| track_kind := Ross_thin; amp := fun _ => 1; amp_l := dark; par := fun _ => dark; par_l := fun _ => dark |}.
Lemma half_lit : 0 < 1 / 2 <= 1. Proof. lra. Qed.
Lemma right_angle : 0 <= PI / 2 <= PI. Proof. pose proof PI_RGT_0. lra. Qed.
Theorem C51_stale_derivs_refuted : exists qx kqx kqw F, let b := fun y => build qx 1 kqx Q0 1 (fun _ => true) (map (at_time y) moving) (vec_cells 0 1 0) (fun _ _ _ _ => None) in
  (forall y, ref_vec 1 kqx kqw 0 true (kf (b y)) 0 0 = Some (F y)) /\ (forall x, derivable_pt_lim F x 1) /\
  (forall x, ref_vec 1 kqx kqw 0 true (kf_l (b x) 0) 0 0 = Some 2).
Proof.
  exists (fun _ => 1 / 2), (fun _ => PI / 2), (fun _ => 1), (fun y => surface 1 (fun _ => PI / 2) (fun _ => 1) 0 (acos (1 / 2)) (acos (1 / 2)) [Flat (1 * y); Turning 1 (brdf S_ross_thin)]).
  cbv zeta. refine (conj _ (conj _ _)).
  - intro y. refine (C51_vector (fun _ => 1 / 2) 1 _ _ Q0 1 _ (map (at_time y) moving) _ 0 1 0 _ 0 0 0 _ eq_refl (fun _ _ => right_angle) half_lit (fun _ _ => half_lit) _); [|lia].
    constructor; [|constructor; [|constructor]].
    + match goal with |- describes _ ?e _ => exact (d_direct Q0 e eq_refl) end.
    + match goal with |- describes _ ?e _ => exact (d_shape Q0 e S_ross_thin eq_refl I) end.
  - intro x. cbn [surface List.fold_right part Nat.eqb]. set (w := 1 * coefficient _ _ _ _ _ + 0).
    apply (dl_same (fun y => y + w)); [intro; ring|]. replace 1 with (1 + 0) by ring. apply DeltaMProofs.dl_plus; [apply derivable_pt_lim_id|apply derivable_pt_lim_const].
  - intro x. set (q := fun _ : nat => 1 / 2). set (k := fun _ : nat => PI / 2).
    pose (c := {| at_row := 0; at_col := 0; to_dir := 0; from_dir := 0 |}). set (e := at_time x (nth 1 moving silent_track)).
    assert (forall r, (r =? 0)%nat = false -> (r <= 2)%nat -> exists w, value q k Q0 e (visit_at 1 k r c) = Some w) as V.
    { intros r Z Hr. eexists. apply (value_shape q 1 k Q0 (fun _ _ => right_angle) e S_ross_thin r c eq_refl I (conj half_lit half_lit) Hr Z). }
    destruct (V 1%nat eq_refl ltac:(lia)) as [w1 V1]. destruct (V 2%nat eq_refl ltac:(lia)) as [w2 V2]. clear V.
    unfold build, vec_cells, ref_vec, component. cbn [moving map seq fold_left Nat.eqb].
    change (at_time x {| track_kind := Ross_thin; amp := fun _ => 1; amp_l := dark; par := fun _ => dark; par_l := fun _ => dark |}) with e.
    set (e0 := at_time x _). unfold visits. cbn [kind e e0 at_time nth moving track_kind needs_fourier map flat_map seq app fold_left Nat.add].
    change {| row := 1; spot := {| at_row := 0; at_col := 0; to_dir := 0; from_dir := 0 |}; point := 0; azim := k 0%nat |} with (visit_at 1 k 1 c).
    change {| row := 2; spot := {| at_row := 0; at_col := 0; to_dir := 0; from_dir := 0 |}; point := 0; azim := - k 0%nat |} with (visit_at 1 k 2 c).
    unfold evaluate. cbn [kf_l f_l kf]. rewrite V1, V2. cbn [here row spot at_row at_col visit_at Nat.eqb Nat.leb Nat.ltb andb report kind e e0 at_time nth moving track_kind c].
    cbn. f_equal. unfold dark. rewrite !Rmult_0_l, cos_0. field.
Qed.
Print Assumptions C51_stale_derivs_refuted.

(** The adjoints: for a Lambertian surface the adjoint of an amplitude grows by the derivative of what the reflection contributes. *)
Definition with_amp (a : R) (e : entry) : entry := {| kind := kind e; ampfac := a; ampfac_l := ampfac_l e; params := params e; params_l := params_l e |}.
Lemma albedo_app : forall a b, albedo (a ++ b) = albedo a + albedo b.
Proof. intros a b. unfold albedo. induction a as [|e a IH]; cbn [app fold_right]; [ring|]. rewrite IH. ring. Qed.
Lemma lambertian_amp : forall es1 e es2 a, Forall (fun e => kind e = Lambertian) (es1 ++ e :: es2) -> Forall (fun e => kind e = Lambertian) (es1 ++ with_amp a e :: es2).
Proof.
  intros es1 e es2 a H. apply Forall_app in H. destruct H as [H1 H2]. inversion H2; subst. apply Forall_app. split; [exact H1|]. constructor; [assumption|assumption].
Qed.
Lemma nonempty : forall (es1 : list entry) e es2, solar_surface (es1 ++ e :: es2) 0 = true.
Proof. intros [|x es1] e es2; reflexivity. Qed.
Lemma dl_upto : forall n (f : nat -> R -> R) (f' : nat -> R) x, (forall i, (i < n)%nat -> derivable_pt_lim (f i) x (f' i)) -> derivable_pt_lim (fun y => upto n (fun i => f i y)) x (upto n f').
Proof.
  intros n f f' x H. rewrite upto_sum. apply (dl_same (fun y => sum (fun i => f i y) (seq 0 n))); [intro; symmetry; apply upto_sum|]. apply dl_sum. intros i Hi. apply H. apply in_seq in Hi. lia.
Qed.
Lemma sum_map : forall A B (g : A -> B) (f : B -> R) l, sum f (map g l) = sum (fun a => f (g a)) l.
Proof. intros A B g f l. induction l as [|a l IH]; [reflexivity|]. cbn. unfold sum in IH. rewrite IH. reflexivity. Qed.
Lemma sum_app : forall A (f : A -> R) l k, sum f (l ++ k) = sum f l + sum f k.
Proof. intros A f l k. unfold sum. induction l as [|a l IH]; cbn [app fold_right]; [ring|]. rewrite IH. ring. Qed.
Lemma sum_flat_map : forall A B (g : A -> list B) (f : B -> R) l, sum f (flat_map g l) = sum (fun a => sum f (g a)) l.
Proof. intros A B g f l. induction l as [|a l IH]; [reflexivity|]. cbn [flat_map]. rewrite sum_app, IH. reflexivity. Qed.
Lemma dl_affine : forall c a b x, derivable_pt_lim (fun y => c * (a + (y + b))) x c.
Proof.
  intros c a b x. apply (dl_same (fun y => c * y + c * (a + b))); [intro; ring|]. apply (DeltaMProofs.dl_eq _ _ (c * 1 + 0)); [|ring].
  apply DeltaMProofs.dl_plus; [apply SingleProofs.dl_scal, derivable_pt_lim_id|apply derivable_pt_lim_const].
Qed.
Theorem C51_vector_adjoint : forall qx nk kqx kqw g n_derivs derivs es1 e es2 i_offset n j_offset old R_a acc,
  let es := es1 ++ e :: es2 in Forall (fun e => kind e = Lambertian) es ->
  (forall k, (k < nk)%nat -> 0 <= kqx k <= PI) -> 0 < qx j_offset <= 1 -> (forall i, (i < n)%nat -> 0 < qx (i_offset + i)%nat <= 1) ->
  exists r, (forall a i, (i < n)%nat -> let es' := es1 ++ with_amp a e :: es2 in
      ref_vec nk kqx kqw 0 (flag es') (kf (build qx nk kqx g n_derivs derivs es' (vec_cells i_offset n j_offset) old)) i 0 = Some (r a i)) /\
    derivable_pt_lim (fun a => upto n (fun i => R_a i * r a i)) (ampfac e)
      (ampfac_adjoint es (vec_cells i_offset n j_offset) (fun _ => 2 - zeroth 0) (fun c => R_a (at_row c)) acc e - acc).
Proof.
  intros qx nk kqx kqw g n_derivs derivs es1 e es2 io n jo old R_a acc es La Hk Hj Hi.
  exists (fun a _ => albedo es1 + (a + albedo es2)). split.
  - intros a i Ni es'. pose proof (lambertian_amp es1 e es2 a La) as La'. fold es' in La'.
    assert (albedo es1 + (a + albedo es2) = albedo es') as -> by (unfold es'; rewrite albedo_app; reflexivity).
    rewrite <- (surface_flat nk kqx kqw (acos (qx jo)) (acos (qx (io + i)%nat)) es').
    exact (C51_vector qx nk kqx kqw g n_derivs derivs es' _ io n jo old 0 i 0 (describes_flat g es' La') (nonempty es1 (with_amp a e) es2) Hk Hj Hi Ni).
  - assert (kind e = Lambertian) as K. { apply Forall_app in La. destruct La as [_ La]. inversion La; assumption. }
    unfold ampfac_adjoint. rewrite (flag_flat es La), K. cbn [needs_fourier]. rewrite sum_fold. unfold vec_cells. rewrite sum_map. cbn [at_row].
    rewrite (sum_ext _ _ R_a). 2:{ intros i _. unfold zeroth. cbn [Nat.eqb]. ring. }
    replace (acc + sum R_a (seq 0 n) - acc) with (upto n R_a) by (rewrite upto_sum; ring).
    apply (dl_upto n (fun i a => R_a i * (albedo es1 + (a + albedo es2)))). intros i _. apply dl_affine.
Qed.
Print Assumptions C51_vector_adjoint.
Theorem C51_matrix_adjoint : forall qx qw nk kqx kqw g n_derivs derivs es1 e es2 i_offset n1 j_offset n2 old qf R_a acc,
  let es := es1 ++ e :: es2 in Forall (fun e => kind e = Lambertian) es ->
  (forall k, (k < nk)%nat -> 0 <= kqx k <= PI) ->
  (forall i, (i < n1)%nat -> 0 < qx (i_offset + i)%nat <= 1) -> (forall j, (j < n2)%nat -> 0 < qx (j_offset + j)%nat <= 1) ->
  exists r, (forall a i j, (i < n1)%nat -> (j < n2)%nat -> let es' := es1 ++ with_amp a e :: es2 in
      ref_mat nk kqx kqw 0 (flag es') qf qx qw j_offset (kf (build qx nk kqx g n_derivs derivs es' (mat_cells i_offset n1 j_offset n2) old)) i j 0 0 = Some (r a i j)) /\
    derivable_pt_lim (fun a => upto n1 (fun i => upto n2 (fun j => R_a i j * r a i j))) (ampfac e)
      (ampfac_adjoint es (mat_cells i_offset n1 j_offset n2) (fun c => (2 - zeroth 0) * (1 + zeroth 0) * qf * qx (j_offset + at_col c)%nat * qw (j_offset + at_col c)%nat)
         (fun c => R_a (at_row c) (at_col c)) acc e - acc).
Proof.
  intros qx qw nk kqx kqw g n_derivs derivs es1 e es2 io n1 jo n2 old qf R_a acc es La Hk Hi Hj. set (b := fun j => 2 * qf * (qx (jo + j)%nat * qw (jo + j)%nat)).
  exists (fun a _ j => (albedo es1 + (a + albedo es2)) * b j). split.
  - intros a i j Ni Nj es'. pose proof (lambertian_amp es1 e es2 a La) as La'. fold es' in La'.
    assert (albedo es1 + (a + albedo es2) = albedo es') as -> by (unfold es'; rewrite albedo_app; reflexivity).
    rewrite <- (surface_flat nk kqx kqw (acos (qx (jo + j)%nat)) (acos (qx (io + i)%nat)) es').
    exact (C51_matrix qx qw nk kqx kqw g n_derivs derivs es' _ io n1 jo n2 old 0 qf i j 0 0 (describes_flat g es' La') (nonempty es1 (with_amp a e) es2) Hk Hi Hj Ni Nj).
  - assert (kind e = Lambertian) as K. { apply Forall_app in La. destruct La as [_ La]. inversion La; assumption. }
    unfold ampfac_adjoint. rewrite (flag_flat es La), K. cbn [needs_fourier]. rewrite sum_fold. unfold mat_cells. rewrite sum_flat_map.
    match goal with |- derivable_pt_lim _ _ (acc + ?s - acc) => replace (acc + s - acc) with (upto n1 (fun i => upto n2 (fun j => R_a i j * b j))) end.
    2:{ rewrite upto_sum. match goal with |- sum ?f _ = acc + sum ?h _ - acc => rewrite (sum_ext _ h f); [ring|] end.
        intros i _. rewrite sum_map, upto_sum. apply sum_ext. intros j _. cbn [at_row at_col]. unfold b, zeroth. cbn [Nat.eqb]. ring. }
    apply (dl_upto n1 (fun i a => upto n2 (fun j => R_a i j * ((albedo es1 + (a + albedo es2)) * b j)))). intros i _.
    apply (dl_upto n2 (fun j a => R_a i j * ((albedo es1 + (a + albedo es2)) * b j))). intros j _.
    apply (dl_same (fun a => R_a i j * b j * (albedo es1 + (a + albedo es2)))); [intro; ring|]. apply dl_affine.
Qed.
Print Assumptions C51_matrix_adjoint.

(** For a direct-and-diffuse kernel the factor of the kernel is missing from the adjoint, and in the company of a kernel that depends on the azimuth even a
    Lambertian one gets nothing. *)
Definition still (k : kernel) (p : nat -> R) : entry := {| kind := k; ampfac := 1; ampfac_l := dark; params := p; params_l := fun _ => dark |}.
Theorem C51_adjoint_refuted : exists qx kqx kqw r d, let e := still Direct_and_diffuse (fun _ => 1 / 2) in
  (forall a, ref_vec 1 kqx kqw 0 false (kf (build qx 1 kqx Q0 0 (fun _ => true) [with_amp a e] (vec_cells 0 1 0) (fun _ _ _ _ => None))) 0 0 = Some (r a)) /\
  derivable_pt_lim r 1 d /\ ampfac_adjoint [e] (vec_cells 0 1 0) (fun _ => 1) (fun _ => 1) 0 e <> d.
Proof.
  exists (fun _ => 1 / 2), (fun _ => PI / 2), (fun _ => 1), (fun a => 1 / 2 * (0 + (a + 0))), (1 / 2). cbv zeta. refine (conj _ (conj (dl_affine _ _ _ _) _)).
  - intro a. cbn. f_equal. field.
  - cbn. lra.
Qed.
Print Assumptions C51_adjoint_refuted.
Theorem C51_mixed_adjoint_refuted : exists qx kqx kqw r d, let e := still Lambertian dark in let e' := still Ross_thin dark in
  (forall a, ref_vec 1 kqx kqw 0 true (kf (build qx 1 kqx Q0 0 (fun _ => true) [with_amp a e; e'] (vec_cells 0 1 0) (fun _ _ _ _ => None))) 0 0 = Some (r a)) /\
  derivable_pt_lim r 1 d /\ ampfac_adjoint [e; e'] (vec_cells 0 1 0) (fun _ => 1) (fun _ => 1) 0 e <> d.
Proof.
  exists (fun _ => 1 / 2), (fun _ => PI / 2), (fun _ => 1).
  exists (fun a => surface 1 (fun _ => PI / 2) (fun _ => 1) 0 (acos (1 / 2)) (acos (1 / 2)) [Flat a; Turning 1 (brdf S_ross_thin)]), 1. cbv zeta. refine (conj _ (conj _ _)).
  - intro a. refine (C51_vector (fun _ => 1 / 2) 1 _ _ Q0 0 _ [with_amp a (still Lambertian dark); still Ross_thin dark] _ 0 1 0 _ 0 0 0 _ eq_refl (fun _ _ => right_angle) half_lit (fun _ _ => half_lit) _); [|lia].
    constructor; [|constructor; [|constructor]].
    + match goal with |- describes _ ?e _ => exact (d_lambertian Q0 e eq_refl) end.
    + match goal with |- describes _ ?e _ => exact (d_shape Q0 e S_ross_thin eq_refl I) end.
  - cbn [surface List.fold_right part Nat.eqb]. set (w := 1 * coefficient _ _ _ _ _ + 0). apply (dl_same (fun y => 1 * (w + (y + 0)))); [intro; ring|]. apply dl_affine.
  - cbn. lra.
Qed.
Print Assumptions C51_mixed_adjoint_refuted.

(** The setters take any parameters: Hapke's kernel with the single scattering albedo 2 is not a number anywhere. *)
Theorem C51_undefined_refuted : forall qx nk kqx kqw g n_derivs derivs es2 i_offset n j_offset old m i p,
  (0 < nk)%nat -> (i < n)%nat -> 1 < p 0%nat ->
  ref_vec nk kqx kqw m true (kf (build qx nk kqx g n_derivs derivs (still Hapke p :: es2) (vec_cells i_offset n j_offset) old)) i 0 = None.
Proof.
  intros qx nk kqx kqw g n_derivs derivs es2 io n jo old m i p Hn Ni Hp. unfold ref_vec. cbn [Nat.eqb].
  rewrite component_none; [reflexivity|exact Hn|]. pose (c := {| at_row := i; at_col := 0; to_dir := io + i; from_dir := jo |}).
  assert (In c (vec_cells io n jo)) as Hc by (unfold vec_cells; apply in_map_iff; exists i; split; [reflexivity|apply in_seq; lia]).
  unfold build. cbn [fold_left]. set (st0 := {| kf := _ |}).
  assert (forall st, kf st 1%nat i 0%nat = None -> kf (fold_left (fun st e => fold_left (evaluate qx kqx g n_derivs derivs e) (visits nk kqx e (vec_cells io n jo)) st) es2 st) 1%nat i 0%nat = None) as St.
  { induction es2 as [|e es IH]; intros st H; [exact H|]. cbn [fold_left]. apply IH. clear IH. revert st H. induction (visits nk kqx e (vec_cells io n jo)) as [|v vs IHv]; intros st H; [exact H|].
    cbn [fold_left]. apply IHv. cbn [evaluate kf]. destruct (here v 1 i 0); [rewrite H; reflexivity|exact H]. }
  apply St.
  pose proof (busy qx nk kqx g n_derivs derivs (vec_cells io n jo) c 1 (vec_nodup io n jo) Hc ltac:(lia) (still Hapke p) st0 eq_refl) as E. cbn [at_row at_col c] in *. rewrite E.
  assert (value qx kqx g (still Hapke p) (visit_at nk kqx 1 c) = None) as ->; [|reflexivity].
  unfold value. cbn [kind still]. unfold angle_of at 1. destruct (nsqrt _) as [s1|]; [|reflexivity]. cbn [bind]. destruct (ndiv _ _) as [t1|]; [|reflexivity]. cbn [bind].
  unfold angle_of. destruct (nsqrt _) as [s2|]; [|reflexivity]. cbn [bind]. destruct (ndiv _ _) as [t2|]; [|reflexivity]. cbn [bind]. cbv zeta. unfold hapke. cbn [params still].
  destruct (ndiv _ _) as [R0|]; [|reflexivity]. cbn [bind]. unfold nsqrt. destruct (Rle_dec 0 (1 - p 0%nat)); [lra|reflexivity].
Qed.
Print Assumptions C51_undefined_refuted.

(** A surface of five kernels, seen by two directions *)
Definition five : list entry :=
  [ still Lambertian dark; still Direct_and_diffuse (fun _ => 1 / 4); still Li_dense (fun _ => 1); still Rahman (fun _ => 1 / 3); still Cox_munk (fun _ => 4) ].
Example C51_five : Forall2 (describes QQ) five
  [ Flat 1; Flat (1 * (1 / 4)); Turning 1 (brdf (S_li_dense 1 1)); Turning 1 (brdf (S_rahman (1 / 3) (1 / 3) (1 / 3))); Turning 1 (brdf (S_cox_munk 4 (sqrt 4))) ] /\
  solar_surface five 3 = true /\ (forall k, (k < 4)%nat -> 0 <= INR k / 4 * PI <= PI) /\ (forall i, (i < 2)%nat -> 0 < 1 / (INR i + 1) <= 1).
Proof.
  refine (conj _ (conj eq_refl (conj _ _))).
  - constructor; [exact (d_lambertian QQ (still Lambertian dark) eq_refl)|]. constructor; [exact (d_direct QQ (still Direct_and_diffuse (fun _ => 1 / 4)) eq_refl)|].
    constructor. { refine (d_shape QQ (still Li_dense (fun _ => 1)) _ eq_refl _). cbn. lra. }
    constructor. { refine (d_shape QQ (still Rahman (fun _ => 1 / 3)) _ eq_refl _). cbn. lra. }
    constructor; [|constructor]. refine (d_shape QQ (still Cox_munk (fun _ => 4)) _ eq_refl _). cbn. split; [lra|]. rewrite <- sqrt_1 at 1. apply sqrt_le_1; lra.
  - intros k Hk. pose proof PI_RGT_0. assert (0 <= INR k <= 4) as [A B]. { split; [apply pos_INR|]. replace 4 with (INR 4) by (cbn; ring). apply le_INR. lia. }
    split; [apply Rmult_le_pos; lra|]. rewrite <- (Rmult_1_l PI) at 2. apply Rmult_le_compat_r; lra.
  - intros i _. pose proof (pos_INR i). split; [apply Rdiv_lt_0_compat; lra|]. apply (Rmult_le_reg_r (INR i + 1)); [lra|]. unfold Rdiv. rewrite Rmult_assoc, Rinv_l by lra. lra.
Qed.
(** A moving surface: a Lambertian kernel in front of one of Roujean's, then a direct-and-diffuse kernel whose parameters move *)
Definition served_three : list track :=
  [ {| track_kind := Lambertian; amp := fun y => y; amp_l := fun _ => 1; par := fun _ => dark; par_l := fun _ => dark |};
    {| track_kind := Roujean; amp := fun y => 2 * y; amp_l := fun _ => 2 * 1; par := fun _ => dark; par_l := fun _ => dark |};
    {| track_kind := Direct_and_diffuse; amp := fun y => y; amp_l := fun _ => 1; par := fun y _ => y; par_l := fun _ _ => 1 |} ].
Example C51_served : served QQ 0 5 false served_three [ (fun y => Flat y); (fun y => Turning (2 * y) (brdf S_roujean)); (fun y => Flat (y * y)) ].
Proof.
  apply (s_lambertian QQ 0 5 false (nth 0 served_three silent_track)); [reflexivity|apply derivable_pt_lim_id|].
  apply (s_shape QQ 0 5 (nth 1 served_three silent_track)); [reflexivity|exact I|apply SingleProofs.dl_scal, derivable_pt_lim_id|reflexivity|].
  apply (s_direct QQ 0 5 true (nth 2 served_three silent_track) [] [] 3); [reflexivity|apply derivable_pt_lim_id|reflexivity|apply derivable_pt_lim_id|]. constructor.
Qed.
