(** Proofs about the boundary input. *)
From Coq Require Import Reals Bool Arith Lia Lra.
From Verif Require Import Base DeltaMProofs BoundModel BoundSpec.
Open Scope R_scope.

Lemma strided_S A n ii s (body : nat -> A -> A) v : strided (S n) ii s body v = strided n (ii + s) s body (body ii v).
Proof. reflexivity. Qed.
Definition bumps (o : nat) (x : vec) (body : nat -> vec -> vec) : Prop :=
  forall i v j, body i v j = if Nat.eqb j (o + i) then v j + x i else v j.
Lemma strided_miss o x body : bumps o x body -> forall n ii s v j, (forall c, (c < n)%nat -> j <> (o + (ii + c * s))%nat) -> strided n ii s body v j = v j.
Proof.
  intros B. induction n as [|n IH]; intros ii s v j H; [reflexivity|]. rewrite strided_S, IH.
  - rewrite B. destruct (Nat.eqb_spec j (o + ii)); [|reflexivity]. exfalso. apply (H 0%nat); lia.
  - intros c C. replace (o + (ii + s + c * s))%nat with (o + (ii + S c * s))%nat by (cbn; lia). apply H. lia.
Qed.
Lemma strided_hit o x body : bumps o x body -> forall n ii s v c, (0 < s)%nat -> (c < n)%nat ->
  strided n ii s body v (o + (ii + c * s))%nat = v (o + (ii + c * s))%nat + x (ii + c * s)%nat.
Proof.
  intros B. induction n as [|n IH]; intros ii s v c P C; [lia|]. rewrite strided_S. destruct c as [|c].
  - rewrite (strided_miss o x body B); [|intros; nia]. rewrite B. replace (ii + 0 * s)%nat with ii by lia. now rewrite Nat.eqb_refl.
  - replace (ii + S c * s)%nat with (ii + s + c * s)%nat by (cbn; lia). rewrite IH by lia. rewrite B.
    destruct (Nat.eqb_spec (o + (ii + s + c * s)) (o + ii)); [nia|reflexivity].
Qed.
Lemma strided_sum x : forall n ii s a, strided n ii s (fun jj a => a + x jj) a = a + total n (fun j => x (ii + j * s)%nat).
Proof.
  assert (forall n f, total (S n) f = f 0%nat + total n (fun j => f (S j))) as T.
  { induction n as [|n IH]; intros f; [cbn; lra|]. change (total (S (S n)) f) with (total (S n) f + f (S n)). rewrite IH. cbn [total]. lra. }
  induction n as [|n IH]; intros ii s a; [cbn; lra|]. rewrite strided_S, IH, T. rewrite Nat.mul_0_l, Nat.add_0_r, Rplus_assoc. f_equal. f_equal.
  clear. induction n as [|n IH]; [reflexivity|]. cbn [total]. rewrite IH. f_equal. f_equal. lia.
Qed.
Lemma row_sum_total n s x : row_sum n s x = total n (fun j => x (j * s)%nat).
Proof. unfold row_sum. rewrite strided_sum, Rplus_0_l. reflexivity. Qed.
Lemma total_ext n f g : (forall i, (i < n)%nat -> f i = g i) -> total n f = total n g.
Proof. induction n as [|n IH]; intros H; [reflexivity|]. cbn [total]. rewrite IH by (intros; apply H; lia). now rewrite H by lia. Qed.
Lemma total_0 n : total n (fun _ => 0) = 0.
Proof. induction n as [|n IH]; [reflexivity|]. cbn [total]. lra. Qed.
Lemma total_opp n f : total n (fun i => - f i) = - total n f.
Proof. induction n as [|n IH]; cbn [total]; lra. Qed.
Lemma total_deriv n (f : R -> nat -> R) t f' : (forall i, (i < n)%nat -> derivable_pt_lim (fun u => f u i) t (f' i)) ->
  derivable_pt_lim (fun u => total n (f u)) t (total n f').
Proof.
  induction n as [|n IH]; intros H; [apply derivable_pt_lim_const|]. cbn [total].
  apply (derivable_pt_lim_plus (fun u => total n (f u)) (fun u => f u n)); [apply IH; intros; apply H; lia|apply H; lia].
Qed.

Lemma add_bumps o x : bumps o x (fun i v => add_at v (o + i)%nat (x i)).
Proof. intros i v j. reflexivity. Qed.
Lemma add_bumps0 x : bumps 0 x (fun i v => add_at v i (x i)).
Proof. intros i v j. reflexivity. Qed.

Lemma nx_le c : (n_quad_x c <= nquad c + numus c)%nat.
Proof. unfold n_quad_x. destruct (sfi c); lia. Qed.
Section Sizes.
Variables (c : setup) (s q : nat).
Hypothesis (Hs : (s < nquad c + numus c)%nat) (Hq : (q < nstokes c)%nat).
Notation ix := (s * nstokes c + q)%nat.

(** What loops over angles do to one element *)
Lemma angles_hit o n body x v u : bumps o x body -> (u < n)%nat -> strided n 0 (nstokes c) body v (o + (u * nstokes c + q))%nat =
  v (o + (u * nstokes c + q))%nat + (if Nat.eqb q 0 then x (u * nstokes c)%nat else 0).
Proof.
  intros B U. destruct (Nat.eqb_spec q 0) as [->|N].
  - rewrite Nat.add_0_r. exact (strided_hit o x body B n 0 (nstokes c) v u ltac:(lia) U).
  - rewrite (strided_miss o x body B), Rplus_0_r; [reflexivity|]. intros w W E.
    assert (u * nstokes c + q = w * nstokes c)%nat as E' by lia. destruct (Nat.lt_ge_cases u w); nia.
Qed.
Lemma angles_above o n body x v : bumps o x body -> (forall w, (w < n)%nat -> (o + w * nstokes c <> ix)%nat) -> strided n 0 (nstokes c) body v ix = v ix.
Proof. intros B H. apply (strided_miss o x body B). intros w W E. apply (H w W). lia. Qed.

Lemma iso_at four F v : iso c four F v ix = v ix + (if Nat.eqb four 0 && Nat.eqb q 0 then F else 0).
Proof.
  unfold iso. destruct (Nat.eqb four 0); cbn [andb]; [|lra].
  exact (angles_hit 0 (nquad c + numus c) _ (fun _ => F) v s (add_bumps0 _) Hs).
Qed.
Lemma two_parts (b1 b2 : nat -> vec -> vec) x1 x2 v n :
  bumps 0 x1 b1 -> bumps (n_quad_x c * nstokes c) x2 b2 -> n = (nquad c + numus c)%nat ->
  strided (n * nstokes c - n_quad_x c * nstokes c) 0 1 b2 (strided (n_quad_x c * nstokes c) 0 1 b1 v) ix =
  v ix + (if Nat.ltb s (n_quad_x c) then x1 ix else x2 ((s - n_quad_x c) * nstokes c + q)%nat).
Proof.
  intros B1 B2 ->. pose proof (nx_le c) as L. destruct (Nat.ltb_spec s (n_quad_x c)) as [H|H].
  - rewrite (strided_miss _ x2 b2 B2) by (intros; nia).
    pose proof (strided_hit 0 x1 b1 B1 (n_quad_x c * nstokes c) 0 1 v ix ltac:(lia) ltac:(nia)) as E.
    rewrite Nat.mul_1_r in E. cbn [Nat.add] in E. exact E.
  - pose proof (strided_hit _ x2 b2 B2 ((nquad c + numus c) * nstokes c - n_quad_x c * nstokes c) 0 1
      (strided (n_quad_x c * nstokes c) 0 1 b1 v) ((s - n_quad_x c) * nstokes c + q) ltac:(lia) ltac:(nia)) as E.
    rewrite Nat.mul_1_r in E. cbn [Nat.add] in E.
    replace (n_quad_x c * nstokes c + ((s - n_quad_x c) * nstokes c + q))%nat with ix in E by nia.
    rewrite E. f_equal. apply (strided_miss 0 x1 b1 B1). intros; nia.
Qed.
Lemma two_parts_angles (b1 b2 : nat -> vec -> vec) x1 x2 v :
  bumps 0 x1 b1 -> bumps (n_quad_x c * nstokes c) x2 b2 ->
  strided (nquad c + numus c - n_quad_x c) 0 (nstokes c) b2 (strided (n_quad_x c) 0 (nstokes c) b1 v) ix =
  v ix + (if Nat.eqb q 0 then if Nat.ltb s (n_quad_x c) then x1 (s * nstokes c)%nat else x2 ((s - n_quad_x c) * nstokes c)%nat else 0).
Proof.
  intros B1 B2. pose proof (nx_le c) as L. destruct (Nat.ltb_spec s (n_quad_x c)) as [H|H].
  - rewrite (angles_above _ _ b2 x2 _ B2) by (intros; nia). exact (angles_hit 0 (n_quad_x c) b1 x1 v s B1 H).
  - pose proof (angles_hit (n_quad_x c * nstokes c) (nquad c + numus c - n_quad_x c) b2 x2 (strided (n_quad_x c) 0 (nstokes c) b1 v) (s - n_quad_x c) B2 ltac:(lia)) as E.
    replace (n_quad_x c * nstokes c + ((s - n_quad_x c) * nstokes c + q))%nat with ix in E by nia. rewrite E.
    f_equal. apply (angles_above 0 _ b1 x1 v B1). intros; nia.
Qed.
Lemma direct_at b x v : direct c b (bRq0 x) (bRu0 x) v ix = v ix + b * reflected c x s q.
Proof.
  unfold direct. rewrite (two_parts _ _ (fun i => b * bRq0 x i) (fun i => b * bRu0 x i)); [|apply add_bumps0|apply add_bumps|reflexivity].
  unfold reflected. now destruct (Nat.ltb s (n_quad_x c)).
Qed.
Lemma emitted_at B x v : emitted c B (bRqq x) (bRuq x) v ix = v ix + (if Nat.eqb q 0 then B * (1 - albedo c x s) else 0).
Proof.
  unfold emitted.
  rewrite (two_parts_angles _ _ (fun i => B * (1 - row_sum (n_quad_x c) (nstokes c) (bRqq x i))) (fun i => B * (1 - row_sum (n_quad_x c) (nstokes c) (bRuq x i))));
    [|apply add_bumps0|intros i w j; reflexivity].
  unfold albedo, row. destruct (Nat.eqb q 0); [|reflexivity]. now destruct (Nat.ltb s (n_quad_x c)); rewrite row_sum_total.
Qed.
Lemma bottom_at four k x : bottom_input c four k x ix = leaving c four k x s q.
Proof.
  unfold bottom_input, leaving, solar_surface, thermal_surface, scale.
  set (v0 := iso c four (bF_bot x) (fun _ => 0)). assert (v0 ix = if Nat.eqb four 0 && Nat.eqb q 0 then bF_bot x else 0) as E0.
  { unfold v0. rewrite iso_at. lra. }
  rewrite <- (andb_assoc (solar c)). set (v1 := if solar c && (kernels c && (Nat.eqb four 0 || needs_fourier c)) then _ else v0).
  assert (v1 ix = (if Nat.eqb four 0 && Nat.eqb q 0 then bF_bot x else 0) +
    (if solar c && (kernels c && (Nat.eqb four 0 || needs_fourier c)) then bqf k * bmu0 k * bF0 k / PI * bbtran x * reflected c x s q else 0)) as E1.
  { unfold v1. destruct (solar c && (kernels c && (Nat.eqb four 0 || needs_fourier c))); [rewrite direct_at, E0; reflexivity|rewrite E0; lra]. }
  rewrite andb_assoc. destruct (thermal c && kernels c && Nat.eqb four 0); cbn [andb]; [|rewrite E1; lra].
  rewrite emitted_at, E1. reflexivity.
Qed.
Lemma top_at four x : top_input c four x ix = entering four x q.
Proof. unfold top_input. rewrite iso_at. unfold entering. lra. Qed.

(** The derivatives, as computed *)
Definition last_of (x : fields) : R := if Nat.ltb s (n_quad_x c) then albedo c x (n_quad_x c - 1) else albedo c x (nquad c + numus c - 1).
Lemma direct_l_at b b_l var x x_l v : direct_l c b b_l var (bRq0 x) (bRu0 x) (bRq0 x_l) (bRu0 x_l) v ix =
  v ix + (b_l * reflected c x s q + if var then b * reflected c x_l s q else 0).
Proof.
  unfold direct_l.
  rewrite (two_parts _ _ (fun i => b_l * bRq0 x i + if var then b * bRq0 x_l i else 0) (fun i => b_l * bRu0 x i + if var then b * bRu0 x_l i else 0)); [| | |reflexivity].
  - unfold reflected. now destruct (Nat.ltb s (n_quad_x c)).
  - intros i w j. unfold add_at. destruct var; cbn [Nat.add]; destruct (Nat.eqb j i); lra.
  - intros i w j. unfold add_at. destruct var; destruct (Nat.eqb j (n_quad_x c * nstokes c + i)); lra.
Qed.
Lemma emitted_l_at B B_l var x x_l v : emitted_l c B B_l var (bRqq x) (bRuq x) (bRqq x_l) (bRuq x_l) v ix =
  v ix + (if Nat.eqb q 0 then B_l * (1 - last_of x) - B * (if var then albedo c x_l s else 0) else 0).
Proof.
  unfold emitted_l.
  set (x1 := fun i => B_l * (1 - last_sum (n_quad_x c) (n_quad_x c) (nstokes c) (bRqq x)) + B * - (if var then row_sum (n_quad_x c) (nstokes c) (bRqq x_l i) else 0)).
  set (x2 := fun i => B_l * (1 - last_sum (nquad c + numus c - n_quad_x c) (n_quad_x c) (nstokes c) (bRuq x)) + B * - (if var then row_sum (n_quad_x c) (nstokes c) (bRuq x_l i) else 0)).
  rewrite (two_parts_angles _ _ x1 x2); [|intros i w j; reflexivity|intros i w j; reflexivity].
  destruct (Nat.eqb q 0); [|reflexivity]. f_equal. unfold x1, x2, last_of, albedo, row, last_sum. pose proof (nx_le c) as L.
  destruct (Nat.ltb_spec s (n_quad_x c)) as [H|H].
  - destruct (Nat.ltb_spec (n_quad_x c - 1) (n_quad_x c)); [|lia]. rewrite !row_sum_total. destruct var; lra.
  - destruct (Nat.ltb_spec (nquad c + numus c - 1) (n_quad_x c)); [lia|]. rewrite !row_sum_total.
    replace (nquad c + numus c - 1 - n_quad_x c)%nat with (nquad c + numus c - n_quad_x c - 1)%nat by lia. destruct var; lra.
Qed.
Lemma bottom_l_at four k var x x_l : bottom_input_l c four k var x x_l ix =
  (if Nat.eqb four 0 && Nat.eqb q 0 then bF_bot x_l else 0) +
  (if solar c && kernels c && (Nat.eqb four 0 || needs_fourier c) then
     scale k * bbtran x_l * reflected c x s q + (if var then scale k * bbtran x * reflected c x_l s q else 0) else 0) +
  (if thermal c && kernels c && Nat.eqb four 0 && Nat.eqb q 0 then bsurf x_l * (1 - last_of x) - bsurf x * (if var then albedo c x_l s else 0) else 0).
Proof.
  unfold bottom_input_l, solar_surface, thermal_surface.
  set (v0 := iso c four (bF_bot x_l) (fun _ => 0)). assert (v0 ix = if Nat.eqb four 0 && Nat.eqb q 0 then bF_bot x_l else 0) as E0.
  { unfold v0. rewrite iso_at. lra. }
  rewrite <- (andb_assoc (solar c)). set (v1 := if solar c && (kernels c && (Nat.eqb four 0 || needs_fourier c)) then _ else v0).
  assert (v1 ix = (if Nat.eqb four 0 && Nat.eqb q 0 then bF_bot x_l else 0) +
    (if solar c && (kernels c && (Nat.eqb four 0 || needs_fourier c)) then
     scale k * bbtran x_l * reflected c x s q + (if var then scale k * bbtran x * reflected c x_l s q else 0) else 0)) as E1.
  { unfold v1. destruct (solar c && (kernels c && (Nat.eqb four 0 || needs_fourier c))); [rewrite direct_l_at, E0; reflexivity|rewrite E0; lra]. }
  rewrite andb_assoc. destruct (thermal c && kernels c && Nat.eqb four 0); cbn [andb]; [|rewrite E1; lra].
  rewrite emitted_l_at, E1. reflexivity.
Qed.
End Sizes.

(** Derivative of the true value *)
Lemma leaving_deriv c four k var x t x_l s q : fields_derive var x t x_l ->
  derivable_pt_lim (fun u => leaving c four k (x u) s q) t
   ((if Nat.eqb four 0 && Nat.eqb q 0 then bF_bot x_l else 0) +
    (if solar c && kernels c && (Nat.eqb four 0 || needs_fourier c) then
       scale k * bbtran x_l * reflected c (x t) s q + (if var then scale k * bbtran (x t) * reflected c x_l s q else 0) else 0) +
    (if thermal c && kernels c && Nat.eqb four 0 && Nat.eqb q 0 then bsurf x_l * (1 - albedo c (x t) s) - bsurf (x t) * (if var then albedo c x_l s else 0) else 0)).
Proof.
  intros (_ & D1 & D2 & D3 & D4 & D5 & D6 & D7). unfold leaving.
  assert (derivable_pt_lim (fun u => reflected c (x u) s q) t (if var then reflected c x_l s q else 0)) as DR.
  { unfold reflected. destruct (Nat.ltb s (n_quad_x c)); [apply D4|apply D5]. }
  assert (derivable_pt_lim (fun u => albedo c (x u) s) t (if var then albedo c x_l s else 0)) as DA.
  { unfold albedo. replace (if var then total (n_quad_x c) (fun j => row c x_l s (j * nstokes c)%nat) else 0)
      with (total (n_quad_x c) (fun j => if var then row c x_l s (j * nstokes c)%nat else 0)) by (destruct var; [reflexivity|apply total_0]).
    apply (total_deriv (n_quad_x c) (fun u j => row c (x u) s (j * nstokes c)%nat)). intros i _. unfold row. destruct (Nat.ltb s (n_quad_x c)); [apply D6|apply D7]. }
  apply (derivable_pt_lim_plus (fun u => (if Nat.eqb four 0 && Nat.eqb q 0 then bF_bot (x u) else 0) + _)).
  - apply (derivable_pt_lim_plus (fun u => if Nat.eqb four 0 && Nat.eqb q 0 then bF_bot (x u) else 0)).
    + destruct (Nat.eqb four 0 && Nat.eqb q 0); [exact D1|apply derivable_pt_lim_const].
    + destruct (solar c && kernels c && (Nat.eqb four 0 || needs_fourier c)); [|apply derivable_pt_lim_const].
      apply (dl_eq (fun u => scale k * bbtran (x u) * reflected c (x u) s q) t
        ((0 * bbtran (x t) + scale k * bbtran x_l) * reflected c (x t) s q + scale k * bbtran (x t) * (if var then reflected c x_l s q else 0))).
      * apply (derivable_pt_lim_mult (fun u => scale k * bbtran (x u)) (fun u => reflected c (x u) s q)); [|exact DR].
        apply (derivable_pt_lim_mult (fun _ => scale k) (fun u => bbtran (x u))); [apply derivable_pt_lim_const|exact D2].
      * destruct var; ring.
  - destruct (thermal c && kernels c && Nat.eqb four 0 && Nat.eqb q 0); [|apply derivable_pt_lim_const].
    apply (dl_eq (fun u => bsurf (x u) * (1 - albedo c (x u) s)) t
      (bsurf x_l * (1 - albedo c (x t) s) + bsurf (x t) * (0 - (if var then albedo c x_l s else 0)))).
    + apply (derivable_pt_lim_mult (fun u => bsurf (x u)) (fun u => 1 - albedo c (x u) s)); [exact D3|].
      apply (derivable_pt_lim_minus (fun _ => 1) (fun u => albedo c (x u) s)); [apply derivable_pt_lim_const|exact DA].
    + ring.
Qed.

(** The adjoint *)
Definition push a b (y w : vec) (ii : nat) (r : R * vec) : R * vec := (fst r + w ii * a * y ii, add_at (snd r) ii (w ii * a * b)).
Lemma push_all a b y w : forall n ii r, 
  fst (strided n ii 1 (push a b y w) r) = fst r + total n (fun j => w (ii + j)%nat * a * y (ii + j)%nat) /\
  forall j, snd (strided n ii 1 (push a b y w) r) j = if (ii <=? j) && (j <? ii + n) then snd r j + w j * a * b else snd r j.
Proof.
  induction n as [|n IH]; intros ii r.
  - cbn [strided total]. split; [lra|]. intros j. destruct (Nat.leb_spec ii j), (Nat.ltb_spec j (ii + 0)); cbn [andb]; try reflexivity; lia.
  - rewrite strided_S. destruct (IH (ii + 1)%nat (push a b y w ii r)) as [E1 E2]. split.
    + rewrite E1. unfold push at 1. cbn [fst].
      assert (forall m f, total (S m) f = f 0%nat + total m (fun j => f (S j))) as T.
      { clear. induction m as [|m IH]; intros f; [cbn; lra|]. change (total (S (S m)) f) with (total (S m) f + f (S m)). rewrite IH. cbn [total]. lra. }
      rewrite T. rewrite Nat.add_0_r, Rplus_assoc. f_equal. f_equal. apply total_ext. intros j _. now replace (ii + 1 + j)%nat with (ii + S j)%nat by lia.
    + intros j. rewrite E2. unfold push, add_at. cbn [snd].
      destruct (Nat.leb_spec (ii + 1) j), (Nat.ltb_spec j (ii + 1 + n)), (Nat.leb_spec ii j), (Nat.ltb_spec j (ii + S n)), (Nat.eqb_spec j ii); cbn [andb];
        try lia; subst; try reflexivity.
Qed.
Definition q_part (r : adjoints) (p : R * vec) : adjoints := {| abtran := fst p; aRq0 := snd p; aRu0 := aRu0 r |}.
Definition u_part (r : adjoints) (p : R * vec) : adjoints := {| abtran := fst p; aRq0 := aRq0 r; aRu0 := snd p |}.
Lemma q_strided a b y w r0 : forall n ii p,
  strided n ii 1 (fun i r => {| abtran := abtran r + w i * a * y i; aRq0 := add_at (aRq0 r) i (w i * a * b); aRu0 := aRu0 r |}) (q_part r0 p) =
  q_part r0 (strided n ii 1 (push a b y w) p).
Proof. induction n as [|n IH]; intros ii p; [reflexivity|]. rewrite !strided_S. rewrite <- IH. reflexivity. Qed.
Lemma u_strided a b y w r0 : forall n ii p,
  strided n ii 1 (fun i r => {| abtran := abtran r + w i * a * y i; aRq0 := aRq0 r; aRu0 := add_at (aRu0 r) i (w i * a * b) |}) (u_part r0 p) =
  u_part r0 (strided n ii 1 (push a b y w) p).
Proof. induction n as [|n IH]; intros ii p; [reflexivity|]. rewrite !strided_S. rewrite <- IH. reflexivity. Qed.

Lemma total_add n m f : total (n + m) f = total n f + total m (fun i => f (n + i)%nat).
Proof. induction m as [|m IH]; [rewrite Nat.add_0_r; cbn; lra|]. rewrite Nat.add_succ_r. cbn [total]. rewrite IH. lra. Qed.
Lemma total_plus n f g : total n (fun i => f i + g i) = total n f + total n g.
Proof. induction n as [|n IH]; cbn [total]; [lra|]. rewrite IH. lra. Qed.
Lemma total_scal n k f : total n (fun i => k * f i) = k * total n f.
Proof. induction n as [|n IH]; cbn [total]; [lra|]. rewrite IH. lra. Qed.
Lemma adjoint_values c four k x w g : bF0 k <> 0 -> solar_surface c four = true ->
  let nx := (n_quad_x c * nstokes c)%nat in
  let nu := ((nquad c + numus c) * nstokes c - nx)%nat in
  let r := bottom_input_a c four k x w g in
  abtran r = g + scale k * (total nx (fun i => w i * bRq0 x i) + total nu (fun i => w (nx + i)%nat * bRu0 x i)) /\
  (forall i, (i < nx)%nat -> aRq0 r i = w i * scale k * bbtran x) /\
  (forall i, (i < nu)%nat -> aRu0 r i = w (nx + i)%nat * scale k * bbtran x).
Proof.
  intros F SS nx nu r.
  set (r0 := {| abtran := g; aRq0 := fun _ => 0; aRu0 := fun _ => 0 |}).
  set (p1 := strided nx 0 1 (push (scale k) (bbtran x) (bRq0 x) w) (g, fun _ => 0)).
  assert (r = u_part (q_part r0 p1) (strided nu 0 1 (push (scale k) (bbtran x) (bRu0 x) (fun i => w (nx + i)%nat)) (fst p1, fun _ => 0))) as E.
  { unfold r, bottom_input_a. destruct (Req_EM_T (bF0 k) 0); [contradiction|]. rewrite SS. cbn [andb]. fold nx. fold nu. fold r0.
    change r0 with (q_part r0 (g, fun _ => 0)) at 1. rewrite q_strided. fold p1.
    change (q_part r0 p1) with (u_part (q_part r0 p1) (fst p1, fun _ => 0)) at 1.
    now rewrite (u_strided (scale k) (bbtran x) (bRu0 x) (fun i => w (nx + i)%nat)). }
  rewrite E.
  destruct (push_all (scale k) (bbtran x) (bRq0 x) w nx 0 (g, fun _ => 0)) as [P1 P2].
  destruct (push_all (scale k) (bbtran x) (bRu0 x) (fun i => w (nx + i)%nat) nu 0 (fst p1, fun _ => 0)) as [Q1 Q2].
  cbn [u_part q_part abtran aRq0 aRu0]. split; [|split].
  - rewrite Q1. unfold p1 at 1. cbn [fst] in *. rewrite P1. cbn [fst].
    rewrite (total_ext nx _ (fun i => scale k * (w i * bRq0 x i))) by (intros; cbn [Nat.add]; lra).
    rewrite (total_ext nu _ (fun i => scale k * (w (nx + i)%nat * bRu0 x i))) by (intros; cbn [Nat.add]; lra).
    rewrite !total_scal. lra.
  - intros i Hi. etransitivity; [exact (P2 i)|]. cbn [snd]. cbn [Nat.leb andb]. rewrite Nat.add_0_l. destruct (Nat.ltb_spec i nx); [lra|lia].
  - intros i Hi. etransitivity; [exact (Q2 i)|]. cbn [snd]. cbn [Nat.leb andb]. rewrite Nat.add_0_l. destruct (Nat.ltb_spec i nu); [lra|lia].
Qed.
