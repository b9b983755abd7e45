(** C41: the radiation entering at the top and leaving the surface. *)
From Coq Require Import Reals Bool Arith Lia Lra.
From Verif Require Import Base DeltaMProofs BoundModel BoundSpec BoundProofs.
Open Scope R_scope.

(** For every angle and Stokes parameter the boundary input is the isotropic illumination, the reflected beam and the emission of the surface. *)
Theorem C41_boundary_exact : forall c four k x s q, (s < nquad c + numus c)%nat -> (q < nstokes c)%nat ->
  top_input c four x (s * nstokes c + q)%nat = entering four x q /\ bottom_input c four k x (s * nstokes c + q)%nat = leaving c four k x s q.
Proof. intros c four k x s q Hs Hq. split; [now apply top_at|now apply bottom_at]. Qed.

(** The linearized boundary input is the derivative, unless the emission of the surface varies and its albedo depends on the angle. *)
Theorem C41_derivs_exact : forall c four k var x t x_l s q, (s < nquad c + numus c)%nat -> (q < nstokes c)%nat ->
  fields_derive var x t x_l -> (thermal c = true -> bsurf x_l = 0 \/ same_albedo c (x t)) ->
  derivable_pt_lim (fun u => entering four (x u) q) t (top_input_l c four x_l (s * nstokes c + q)%nat) /\
  derivable_pt_lim (fun u => leaving c four k (x u) s q) t (bottom_input_l c four k var (x t) x_l (s * nstokes c + q)%nat).
Proof.
  intros c four k var x t x_l s q Hs Hq D A. split.
  - unfold top_input_l. rewrite (iso_at c s q Hs Hq), Rplus_0_l. unfold entering. destruct (Nat.eqb four 0 && Nat.eqb q 0); [apply D|apply derivable_pt_lim_const].
  - rewrite (bottom_l_at c s q Hs Hq).
    apply (dl_eq _ t _ _ (leaving_deriv c four k var x t x_l s q D)). f_equal.
    destruct (thermal c); [|reflexivity]. destruct (kernels c && Nat.eqb four 0 && Nat.eqb q 0) eqn:E; rewrite <- !andb_assoc in *; cbn [andb]; rewrite E; [|reflexivity].
    destruct (A eq_refl) as [Z0|SA]; [rewrite Z0; ring|]. f_equal. f_equal. f_equal. unfold last_of. pose proof (nx_le c) as NX.
    destruct (Nat.ltb_spec s (n_quad_x c)) as [H|H].
    + apply SA; try lia. destruct (Nat.ltb_spec s (n_quad_x c)), (Nat.ltb_spec (n_quad_x c - 1) (n_quad_x c)); try reflexivity; lia.
    + apply SA; try lia. destruct (Nat.ltb_spec s (n_quad_x c)), (Nat.ltb_spec (nquad c + numus c - 1) (n_quad_x c)); try reflexivity; lia.
Qed.

(** With solar sources only the reverse mode is the transpose of the linearization: contracted with any weights of the outputs, the
    linearized boundary input equals the contraction of the adjoints with the linearized inputs. *)
Theorem C41_reverse_is_adjoint : forall c four k x x_l w g, solar c = true -> thermal c = false -> bF0 k <> 0 -> kernels c = true ->
  (four = 0%nat \/ needs_fourier c = true) -> bF_bot x_l = 0 ->
  let nx := (n_quad_x c * nstokes c)%nat in
  let nu := ((nquad c + numus c) * nstokes c - nx)%nat in
  let r := bottom_input_a c four k x w g in
  total ((nquad c + numus c) * nstokes c) (fun i => w i * bottom_input_l c four k true x x_l i) =
  (abtran r - g) * bbtran x_l + total nx (fun i => aRq0 r i * bRq0 x_l i) + total nu (fun i => aRu0 r i * bRu0 x_l i).
Proof.
  intros c four k x x_l w g So Th F K Fo FB nx nu r.
  assert (kernels c && (Nat.eqb four 0 || needs_fourier c) = true) as SS
    by (rewrite K; destruct Fo as [-> | ->]; [reflexivity|destruct (Nat.eqb four 0); reflexivity]).
  destruct (adjoint_values c four k x w g F SS) as (A1 & A2 & A3). fold nx in A1, A2, A3. fold nu in A1, A2, A3. fold r in A1, A2, A3.
  rewrite A1. rewrite (total_ext nx (fun i => aRq0 r i * bRq0 x_l i) (fun i => scale k * bbtran x * (w i * bRq0 x_l i))) by (intros i Hi; rewrite A2 by assumption; ring).
  rewrite (total_ext nu (fun i => aRu0 r i * bRu0 x_l i) (fun i => scale k * bbtran x * (w (nx + i)%nat * bRu0 x_l i))) by (intros i Hi; rewrite A3 by assumption; ring).
  rewrite !total_scal. pose proof (nx_le c) as NX.
  assert (forall s q, (s < nquad c + numus c)%nat -> (q < nstokes c)%nat -> bottom_input_l c four k true x x_l (s * nstokes c + q)%nat =
    scale k * bbtran x_l * reflected c x s q + scale k * bbtran x * reflected c x_l s q) as V.
  { intros s q Hs Hq. rewrite (bottom_l_at c s q Hs Hq), FB, So, Th. rewrite <- andb_assoc, SS. cbn [andb]. destruct (Nat.eqb four 0 && Nat.eqb q 0); lra. }
  assert (nx <= (nquad c + numus c) * nstokes c)%nat as LX by (unfold nx; nia).
  replace ((nquad c + numus c) * nstokes c)%nat with (nx + nu)%nat at 1 by (unfold nu; lia). rewrite total_add.
  rewrite (total_ext nx _ (fun i => scale k * bbtran x_l * (w i * bRq0 x i) + scale k * bbtran x * (w i * bRq0 x_l i))).
  2:{ intros i Hi. destruct (Nat.eq_dec (nstokes c) 0) as [Z0|Z0]; [unfold nx in Hi; nia|].
      pose proof (Nat.div_mod i (nstokes c) Z0) as DM. pose proof (Nat.mod_upper_bound i (nstokes c) Z0) as MB.
      assert (i / nstokes c < n_quad_x c)%nat as DB by (apply Nat.div_lt_upper_bound; [assumption|unfold nx in Hi; lia]).
      replace i with (i / nstokes c * nstokes c + i mod nstokes c)%nat at 2 by lia. rewrite V by lia. unfold reflected.
      destruct (Nat.ltb_spec (i / nstokes c) (n_quad_x c)); [|lia].
      replace (i / nstokes c * nstokes c + i mod nstokes c)%nat with i by lia. ring. }
  rewrite (total_ext nu _ (fun i => scale k * bbtran x_l * (w (nx + i)%nat * bRu0 x i) + scale k * bbtran x * (w (nx + i)%nat * bRu0 x_l i))).
  2:{ intros i Hi. destruct (Nat.eq_dec (nstokes c) 0) as [Z0|Z0]; [unfold nu in Hi; rewrite Z0 in Hi; nia|].
      pose proof (Nat.div_mod i (nstokes c) Z0) as DM. pose proof (Nat.mod_upper_bound i (nstokes c) Z0) as MB.
      assert (n_quad_x c + i / nstokes c < nquad c + numus c)%nat as DB.
      { assert (i / nstokes c < nquad c + numus c - n_quad_x c)%nat; [|lia]. apply Nat.div_lt_upper_bound; [assumption|unfold nu, nx in Hi; nia]. }
      replace (nx + i)%nat with ((n_quad_x c + i / nstokes c) * nstokes c + i mod nstokes c)%nat at 2 by (unfold nx; nia). rewrite V by lia. unfold reflected.
      destruct (Nat.ltb_spec (n_quad_x c + i / nstokes c) (n_quad_x c)); [lia|].
      replace ((n_quad_x c + i / nstokes c - n_quad_x c) * nstokes c + i mod nstokes c)%nat with i by nia. ring. }
  rewrite !total_plus, !total_scal. ring.
Qed.

(** Two quadrature angles with albedos 1/2 and 0, one of which emits twice as much as the other *)
Definition two : setup := {| nquad := 2; numus := 0; nstokes := 1; sfi := false; solar := false; thermal := true; kernels := true; needs_fourier := true |}.
Definition no_fields : fields := {| bF_top := 0; bF_bot := 0; bbtran := 0; bRq0 := fun _ => 0; bRu0 := fun _ => 0; bsurf := 0; bRqq := fun _ _ => 0; bRuq := fun _ _ => 0 |}.
Definition glow (t : R) : fields :=
  {| bF_top := 0; bF_bot := 0; bbtran := 0; bRq0 := fun _ => 0; bRu0 := fun _ => 0; bsurf := t;
     bRqq := fun i j => if Nat.eqb i 0 && Nat.eqb j 0 then 1/2 else 0; bRuq := fun _ _ => 0 |}.
Definition glow_l : fields :=
  {| bF_top := 0; bF_bot := 0; bbtran := 0; bRq0 := fun _ => 0; bRu0 := fun _ => 0; bsurf := 1; bRqq := fun _ _ => 0; bRuq := fun _ _ => 0 |}.
Definition sun : beam := {| bqf := 1; bmu0 := 1; bF0 := 1 |}.
Lemma glow_derive t : fields_derive false glow t glow_l.
Proof.
  unfold fields_derive. cbn. repeat (split; [first [apply derivable_pt_lim_const|apply derivable_pt_lim_id|intros; apply derivable_pt_lim_const]|]).
  intros; apply derivable_pt_lim_const.
Qed.
(** The derivative with respect to the emission of the surface takes the albedo of the last angle for all of them. *)
Theorem C41_emission_derivs_refuted : exists c k x t x_l D, fields_derive false x t x_l /\
  derivable_pt_lim (fun u => leaving c 0 k (x u) 0 0) t D /\ bottom_input_l c 0 k false (x t) x_l 0%nat <> D.
Proof.
  exists two, sun, glow, 1, glow_l, (1/2). split; [apply glow_derive|]. split.
  - apply (dl_eq _ 1 _ _ (leaving_deriv two 0 sun false glow 1 glow_l 0 0 (glow_derive 1))). unfold albedo, row. cbn. lra.
  - unfold bottom_input_l. cbn. unfold add_at, row_sum. cbn. lra.
Qed.
(** Reverse mode forgets the emission: nothing reaches the surface although what leaves it depends on its reflection. *)
Definition rough_l : fields :=
  {| bF_top := 0; bF_bot := 0; bbtran := 0; bRq0 := fun _ => 0; bRu0 := fun _ => 0; bsurf := 0; bRqq := fun _ _ => 1; bRuq := fun _ _ => 0 |}.
Theorem C41_reverse_emission_refuted : exists c k x x_l w, thermal c = true /\ bF0 k = 0 /\
  total ((nquad c + numus c) * nstokes c) (fun i => w i * bottom_input_l c 0 k true x x_l i) <> 0 /\
  forall g, let r := bottom_input_a c 0 k x w g in abtran r = g /\ (forall i, aRq0 r i = 0) /\ (forall i, aRu0 r i = 0).
Proof.
  exists two, {| bqf := 1; bmu0 := 1; bF0 := 0 |}, (glow 1), rough_l, (fun _ => 1). split; [reflexivity|]. split; [reflexivity|]. split.
  - unfold bottom_input_l. cbn. unfold add_at, row_sum. cbn. lra.
  - intros g. unfold bottom_input_a. cbn [bF0]. destruct (Req_EM_T 0 0); [|contradiction]. cbn. auto.
Qed.

(** A vector case with additional angles and both sources, in which the emission varies above a surface of one albedo *)
Definition mixed : setup := {| nquad := 2; numus := 1; nstokes := 4; sfi := true; solar := true; thermal := true; kernels := true; needs_fourier := true |}.
Definition warm (t : R) : fields :=
  {| bF_top := t; bF_bot := 1; bbtran := t; bRq0 := fun i => INR i; bRu0 := fun i => INR i; bsurf := 3 * t;
     bRqq := fun i j => if Nat.eqb j 0 then 1/2 else 0; bRuq := fun _ j => if Nat.eqb j 4 then 1/4 else 0 |}.
Definition warm_l : fields :=
  {| bF_top := 1; bF_bot := 0; bbtran := 1; bRq0 := fun _ => 0; bRu0 := fun _ => 0; bsurf := 3; bRqq := fun _ _ => 0; bRuq := fun _ _ => 0 |}.
Example warm_ex : fields_derive false warm 1 warm_l /\ same_albedo mixed (warm 1) /\ leaving mixed 0 sun (warm 1) 2 0 = 1 + 1 * 1 * 1 / PI * 1 * 0 + 3 * (1 - 1/4).
Proof.
  split; [|split].
  - unfold fields_derive. cbn. repeat (split; [first [apply derivable_pt_lim_const|apply derivable_pt_lim_id|intros; apply derivable_pt_lim_const|
      apply (dl_eq _ 1 (0 * 1 + 3 * 1)); [apply (derivable_pt_lim_mult (fun _ => 3) (fun u => u)); [apply derivable_pt_lim_const|apply derivable_pt_lim_id]|lra]]|]).
    intros; apply derivable_pt_lim_const.
  - intros s s' Hs Hs' E. unfold albedo, row. rewrite E. destruct (Nat.ltb s' (n_quad_x mixed)); reflexivity.
  - unfold leaving, reflected, albedo, row. cbn. lra.
Qed.
Definition sunny : setup := {| nquad := 2; numus := 1; nstokes := 4; sfi := true; solar := true; thermal := false; kernels := true; needs_fourier := false |}.
Example sunny_ex : bF0 sun <> 0 /\ bF_bot warm_l = 0 /\ bottom_input_l sunny 0 sun true (warm 1) warm_l 5%nat <> 0.
Proof.
  split; [cbn; lra|]. split; [reflexivity|]. change 5%nat with (1 * nstokes sunny + 1)%nat. rewrite bottom_l_at by (cbn; lia). cbn. unfold scale. cbn.
  assert (0 < / PI) by (apply Rinv_0_lt_compat, PI_RGT_0). unfold Rdiv. nra.
Qed.

Print Assumptions C41_boundary_exact.
Print Assumptions C41_derivs_exact.
Print Assumptions C41_reverse_is_adjoint.
Print Assumptions C41_emission_derivs_refuted.
Print Assumptions C41_reverse_emission_refuted.
