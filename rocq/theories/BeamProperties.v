(** C30: beam attenuation has its closed form and exact derivatives. *)
From Coq Require Import Reals Bool Arith Lia Lra Psatz.
From Verif Require Import DerivsModel DeltaMModel DeltaMSpec DeltaMProofs BeamModel BeamSpec BeamProofs BeamChapman.
Open Scope R_scope.

Theorem C30_plane_parallel : forall q nd n ltau ltau_l b0, q_psa q = false -> q_mu0 q <> 0 ->
  let b := beam_params q nd n ltau ltau_l b0 in
  (forall m, (m <= n)%nat -> btran b m = exp (- (total m ltau / q_mu0 q))) /\
  (forall k, (k < n)%nat -> ltau k <> 0 -> as_0 b k = 1 / q_mu0 q /\ atran b k = exp (- (ltau k / q_mu0 q))).
Proof.
  intros q nd n ltau ltau_l b0 P M b. destruct (beam_closed q nd ltau ltau_l n b0) as (C1 & C2 & _ & _). fold b in C1, C2.
  assert (SL : forall m, slant q ltau m = total m ltau / q_mu0 q).
  { intros [|m]; unfold slant; [cbn [total]; unfold Rdiv; ring|]. now rewrite P. }
  split.
  - intros m H. destruct (C1 m H) as [_ ->]. now rewrite SL.
  - intros k H NZ. destruct (C2 k H) as [A ->]. rewrite !SL in A. cbn [total] in A.
    assert (E : as_0 b k = 1 / q_mu0 q) by (rewrite A; field; auto). split; [exact E|]. rewrite E. f_equal. field. exact M.
Qed.
(** Either geometry: what reaches a level is what reached the one above times the layer between. *)
Theorem C30_layer_by_layer : forall q nd n ltau ltau_l b0 k, (k < n)%nat -> ltau k <> 0 ->
  let b := beam_params q nd n ltau ltau_l b0 in btran b (S k) = btran b k * atran b k /\ btran b 0%nat = 1.
Proof.
  intros q nd n ltau ltau_l b0 k H NZ b. destruct (beam_closed q nd ltau ltau_l n b0) as (C1 & C2 & _ & _). fold b in C1, C2.
  destruct (C1 (S k) H) as [_ ->]. destruct (C1 k ltac:(lia)) as [_ ->]. destruct (C2 k H) as [A ->]. destruct (C1 0%nat ltac:(lia)) as [_ ->].
  split; [|cbn [slant]; rewrite Ropp_0; apply exp_0]. rewrite <- exp_plus. f_equal. rewrite A. field. exact NZ.
Qed.
Lemma total_pos : forall n g, (forall k, (k < n)%nat -> 0 <= g k) -> 0 <= total n g.
Proof. induction n as [|n IH]; intros g H; cbn [total]; [lra|]. specialize (IH g ltac:(intros; apply H; lia)). specialize (H n ltac:(lia)). lra. Qed.
Lemma total_le : forall n g h, (forall k, (k < n)%nat -> g k <= h k) -> total n g <= total n h.
Proof. induction n as [|n IH]; intros g h H; cbn [total]; [lra|]. specialize (IH g h ltac:(intros; apply H; lia)). specialize (H n ltac:(lia)). lra. Qed.
Theorem C30_decreases : forall q nd n ltau ltau_l b0, q_psa q = false -> 0 < q_mu0 q -> (forall k, (k < n)%nat -> 0 < ltau k) ->
  let b := beam_params q nd n ltau ltau_l b0 in
  forall k, (k < n)%nat -> 0 < btran b (S k) < btran b k /\ btran b k <= 1 /\ 0 < atran b k < 1.
Proof.
  intros q nd n ltau ltau_l b0 P M T b k H. destruct (C30_plane_parallel q nd n ltau ltau_l b0 P ltac:(lra)) as [A B]. fold b in A, B.
  rewrite (A (S k)), (A k) by lia. destruct (B k H ltac:(specialize (T k H); lra)) as [_ ->]. cbn [total]. specialize (T k H) as Tk.
  assert (I : 0 < / q_mu0 q) by (apply Rinv_0_lt_compat; exact M).
  assert (0 < ltau k / q_mu0 q) by (apply Rmult_lt_0_compat; assumption).
  assert (0 <= total k ltau) by (apply total_pos; intros p Hp; left; apply T; lia).
  assert (TP : 0 <= total k ltau / q_mu0 q) by (apply Rmult_le_pos; lra).
  refine (conj (conj (exp_pos _) _) (conj _ (conj (exp_pos _) _))).
  - apply exp_increasing. unfold Rdiv in *. rewrite Rmult_plus_distr_r. lra.
  - rewrite <- exp_0. destruct (Rle_lt_or_eq_dec 0 _ TP) as [L|E]; [left; apply exp_increasing; lra|right; f_equal; lra].
  - apply Rlt_le_trans with (exp 0); [apply exp_increasing; lra|rewrite exp_0; lra].
Qed.

(** The linearised quantities are the derivatives along any path of the layer depths. *)
Theorem C30_derivatives : forall q nd n (ltau : R -> nat -> R) (ltau_l : nat -> nat -> R) t0 j b0,
  (j < nd)%nat -> (forall k, (k < n)%nat -> derivable_pt_lim (fun t => ltau t k) t0 (ltau_l k j)) -> (forall k, (k < n)%nat -> ltau t0 k <> 0) ->
  let b t := beam_params q nd n (ltau t) ltau_l b0 in
  (forall m, (m <= n)%nat -> derivable_pt_lim (fun t => btau (b t) m) t0 (btau_l (b t0) m j) /\
                             derivable_pt_lim (fun t => btran (b t) m) t0 (btran_l (b t0) m j)) /\
  (forall k, (k < n)%nat -> derivable_pt_lim (fun t => as_0 (b t) k) t0 (as_0_l (b t0) k j) /\
                            derivable_pt_lim (fun t => atran (b t) k) t0 (atran_l (b t0) k j)).
Proof.
  intros q nd n ltau ltau_l t0 j b0 J D NZ b.
  assert (C : forall t, closed q nd (ltau t) ltau_l n (b t)) by (intros; apply beam_closed).
  assert (SD : forall m, (m <= n)%nat -> derivable_pt_lim (fun t => slant q (ltau t) m) t0 (slant q (fun p => ltau_l p j) m)).
  { intros m H. apply slant_deriv. intros k K. apply D. lia. }
  destruct (C t0) as (C1 & C2 & C3 & C4).
  assert (AD : forall k, (k < n)%nat -> derivable_pt_lim (fun t => as_0 (b t) k) t0 (as_0_l (b t0) k j)).
  { intros k H. apply (derivable_pt_lim_ext (fun t => (slant q (ltau t) (S k) - slant q (ltau t) k) / ltau t k)).
    { intros t. destruct (C t) as (_ & C2' & _). now destruct (C2' k H) as [-> _]. }
    destruct (C4 k j H J) as [-> _]. destruct (C2 k H) as [-> _]. eapply dl_eq.
    - apply dl_div; [apply dl_minus; apply SD; lia|apply D; exact H|apply NZ; exact H].
    - cbv beta. field. apply NZ. exact H. }
  split.
  - intros m H. destruct (C3 m j H J) as [-> ->]. destruct (C1 m H) as [_ ->]. split.
    + apply (derivable_pt_lim_ext (fun t => slant q (ltau t) m)); [|apply SD; exact H].
      intros t. destruct (C t) as (C1' & _). now destruct (C1' m H) as [-> _].
    + apply (derivable_pt_lim_ext (fun t => exp (- slant q (ltau t) m))).
      { intros t. destruct (C t) as (C1' & _). now destruct (C1' m H) as [_ ->]. }
      exact (dl_exp_neg _ _ _ (SD m H)).
  - intros k H. split; [apply AD; exact H|]. destruct (C4 k j H J) as [_ ->]. destruct (C2 k H) as [_ ->].
    apply (derivable_pt_lim_ext (fun t => exp (- (ltau t k * as_0 (b t) k)))).
    { intros t. destruct (C t) as (_ & C2' & _). destruct (C2' k H) as [_ ->]. f_equal. ring. }
    eapply dl_eq; [exact (dl_exp_neg _ _ _ (dl_mult _ _ _ _ _ (D k H) (AD k H)))|].
    cbv beta. replace (- ltau t0 k * as_0 (b t0) k) with (- (ltau t0 k * as_0 (b t0) k)) by ring. reflexivity.
Qed.

(** The adjoint is the transpose of the linearised update, whatever level is asked for, and clears
    the adjoints it has passed on. *)
Theorem C30_adjoint : forall q nd n_layers i_level ltau ltau_l b0 j s,
  (0 < n_layers)%nat -> (i_level <= n_layers)%nat -> (j < nd)%nat -> (forall k, (k < n_layers)%nat -> ltau k <> 0) ->
  let n := Nat.min n_layers (S i_level) in let b := beam_params q nd n ltau ltau_l b0 in
  let s' := beam_params_a q n_layers i_level ltau b s in
  beam_pairing n j b s = total n (fun k => ltau_l k j * (ltau_a s' k - ltau_a s k)) /\
  (forall m, (m <= n)%nat -> btau_a s' m = 0 /\ btran_a s' m = 0) /\ (forall k, (k < n)%nat -> as_0_a s' k = 0 /\ atran_a s' k = 0).
Proof.
  intros q nd n_layers i_level ltau ltau_l b0 j s L0 L J NZ n b s'.
  assert (Ln : (n <= n_layers)%nat) by (unfold n; lia).
  assert (En : last_level n_layers i_level = n) by (unfold n, last_level; destruct (Nat.eqb_spec i_level n_layers); lia).
  assert (Cl := beam_closed q nd ltau ltau_l n b0). fold b in Cl.
  assert (A := adjoint_down q nd n ltau ltau_l b j Cl J ltac:(intros; apply NZ; lia) n s (le_n n)).
  unfold s', beam_params_a. rewrite En. cbv zeta. unfold clear_a. cbn [ltau_a btau_a btran_a as_0_a atran_a].
  set (s1 := loop_down n (level_a q ltau b) s) in *. refine (conj _ (conj _ _)).
  - unfold phi in A. rewrite (total_ext n (fun k => ltau_l k j * (ltau_a s1 k - ltau_a s k)) (fun k => ltau_l k j * ltau_a s1 k + (- 1) * (ltau_l k j * ltau_a s k))) by (intros; ring).
    rewrite total_plus, total_scale, <- A. ring.
  - intros m H. rewrite !cleared. destruct (Nat.ltb_spec m (S n)); [auto|lia].
  - intros k H. rewrite !cleared. assert (E : (k < S (if (i_level <? n_layers)%nat then i_level else n_layers - 1))%nat).
    { unfold n in H. destruct (Nat.ltb_spec i_level n_layers); lia. }
    apply Nat.ltb_lt in E. rewrite E. auto.
Qed.

(** Pseudo-spherical geometry: the factors are slant paths of a straight ray over the thickness of
    the shell, at least 1 and at most 1/mu_0. *)
Theorem C30_slant_factors : forall n mu z0 z chap, 0 < mu <= 1 -> (forall i, (i < n)%nat -> z (S i) <= z i) ->
  (forall i, (i <= n)%nat -> 0 < z0 + z i) -> z 1%nat < z 0%nat ->
  exists c, chapman_functions n mu z0 z chap = Some c /\
  forall i j, (i < n)%nat -> (j <= i)%nat -> 1 <= c i j <= 1 / mu /\
    (z (S j) < z j -> forall s1 s2, on_ray (z0 + z (S i)) mu (z0 + z j) s1 -> on_ray (z0 + z (S i)) mu (z0 + z (S j)) s2 ->
       c i j * (z j - z (S j)) = s1 - s2).
Proof.
  intros n mu z0 z chap Hmu Hz Hp Ht. destruct (table_good n mu z0 z Hmu Hz Hp Ht chap) as (c & E & G). exists c. split; [exact E|].
  intros i j Li Lj. destruct (G i j Li Lj) as [B F]. split; [exact B|]. intros Lt s1 s2 R1 R2. rewrite (F Lt).
  assert (P : 0 < z0 + z (S i)) by (apply Hp; lia).
  rewrite (ray_distance _ _ Hmu P _ _ R1), (ray_distance _ _ Hmu P _ _ R2).
  unfold factor. field. lra.
Qed.
(** With such factors the transmittance lies between the plane-parallel one and the vertical one. *)
Theorem C30_spherical_bounds : forall q nd n ltau ltau_l b0, q_psa q = true -> 0 < q_mu0 q -> (forall k, (k < n)%nat -> 0 < ltau k) ->
  (forall i j, (i < n)%nat -> (j <= i)%nat -> 1 <= q_chap q i j <= 1 / q_mu0 q) ->
  forall m, (m <= n)%nat -> exp (- (total m ltau / q_mu0 q)) <= btran (beam_params q nd n ltau ltau_l b0) m <= exp (- total m ltau).
Proof.
  intros q nd n ltau ltau_l b0 P M T C m H. destruct (beam_closed q nd ltau ltau_l n b0) as (C1 & _). destruct (C1 m H) as [_ ->].
  assert (EL : forall x y, x <= y -> exp (- y) <= exp (- x)).
  { intros x y [L|L]; [left; apply exp_increasing; lra|right; now rewrite L]. }
  assert (S1 : total m ltau <= slant q ltau m <= total m ltau / q_mu0 q).
  { destruct m as [|m]; unfold slant; [cbn [total]; unfold Rdiv; lra|]. rewrite P. split.
    - apply total_le. intros k K. specialize (T k ltac:(lia)). specialize (C m k ltac:(lia) ltac:(lia)). nra.
    - unfold Rdiv. rewrite Rmult_comm, <- total_scale. apply total_le. intros k K. specialize (T k ltac:(lia)). specialize (C m k ltac:(lia) ltac:(lia)).
      unfold Rdiv in C. nra. }
  split; apply EL; apply S1.
Qed.

(* ------------------------------------------------------------------------- *)
(** * Where the code departs from what one would expect                       *)

(** Two equal levels at the top are accepted by the setter (it rejects increasing heights only)
    and make the table read in front of its row. *)
Theorem C30_equal_top_levels_refuted : forall n mu z0 z chap, (0 < n)%nat -> z 0%nat = z 1%nat ->
  chapman_functions n mu z0 z chap = None.
Proof.
  intros n mu z0 z chap L E. unfold chapman_functions. cbv zeta. set (a := sin (acos mu) * sin (acos mu)).
  assert (R0 : forall c, chapman_entry z0 z ((z0 + z 1%nat) * (z0 + z 1%nat) * a) 0 0 c = None).
  { intros c. unfold chapman_entry. cbv zeta. destruct (Req_EM_T (z0 + z 0%nat) (z0 + z 1%nat)); [reflexivity|]. rewrite E in n0. contradiction. }
  assert (NN : forall m b i, loop m (fun j s => match s with Some c => chapman_entry z0 z b i j c | None => None end) None = None).
  { intros m b i. induction m as [|m IH]; [reflexivity|]. cbn [loop]. now rewrite IH. }
  destruct n as [|n]; [lia|]. clear L. induction n as [|n IH].
  - cbn [loop]. apply R0.
  - cbn [loop] in IH |- *. rewrite IH. now rewrite NN.
Qed.
(** In pseudo-spherical geometry each level has its own ray with the same zenith angle, so the
    transmittance need not decrease downwards: over any two shells there are layer depths for which
    the lower layer amplifies the beam. *)
Theorem C30_spherical_decrease_refuted : forall mu z0 z chap nd ltau_l b0, 0 < mu < 1 -> z 1%nat < z 0%nat -> z 2%nat < z 1%nat -> 0 < z0 + z 2%nat ->
  exists c ltau, chapman_functions 2 mu z0 z chap = Some c /\ 0 < ltau 0%nat /\ 0 < ltau 1%nat /\
    let b := beam_params {| q_psa := true; q_mu0 := mu; q_chap := c |} nd 2 ltau ltau_l b0 in
    btran b 1%nat < btran b 2%nat /\ 1 < atran b 1%nat.
Proof.
  intros mu z0 z chap nd ltau_l b0 Hmu Z1 Z2 Zp.
  destruct (table_good 2 mu z0 z ltac:(lra) ltac:(intros [|[|i]] H; try lra; lia) ltac:(intros [|[|[|i]]] H; try lra; lia) Z1 chap) as (c & E & G).
  destruct (G 0%nat 0%nat ltac:(lia) ltac:(lia)) as [B00 F00]. destruct (G 1%nat 0%nat ltac:(lia) ltac:(lia)) as [B10 F10]. destruct (G 1%nat 1%nat ltac:(lia) ltac:(lia)) as [B11 _].
  specialize (F00 Z1). specialize (F10 Z1).
  assert (A : c 1%nat 0%nat < c 0%nat 0%nat).
  { rewrite F00, F10. set (k := 1 - mu * mu). assert (K : 0 < k < 1) by (unfold k; nra).
    assert ((z0 + z 2%nat) * (z0 + z 2%nat) < (z0 + z 1%nat) * (z0 + z 1%nat)) by nra.
    assert (0 < (z0 + z 2%nat) * (z0 + z 2%nat)) by nra.
    apply factor_grows; [lra|lra|nra|nra|nra]. }
  set (C11 := c 1%nat 1%nat) in *. set (d := (c 0%nat 0%nat - c 1%nat 0%nat) / (2 * C11)).
  assert (D : d * C11 = (c 0%nat 0%nat - c 1%nat 0%nat) / 2) by (unfold d; field; lra).
  assert (Dp : 0 < d) by (unfold d; apply Rmult_lt_0_compat; [lra|apply Rinv_0_lt_compat; lra]).
  exists c, (fun k => if (k =? 0)%nat then 1 else d). refine (conj E (conj _ (conj _ _))); [cbn; lra|cbn; exact Dp|].
  intros b. set (q := {| q_psa := true; q_mu0 := mu; q_chap := c |}) in *. set (ltau := fun k : nat => if (k =? 0)%nat then 1 else d) in *.
  destruct (beam_closed q nd ltau ltau_l 2 b0) as (C1 & C2 & _). fold b in C1, C2.
  destruct (C1 1%nat ltac:(lia)) as [_ ->]. destruct (C1 2%nat ltac:(lia)) as [_ ->]. destruct (C2 1%nat ltac:(lia)) as [A1 ->].
  assert (S1 : slant q ltau 1 = c 0%nat 0%nat) by (unfold slant; cbn; ring).
  assert (S2 : slant q ltau 2 = c 1%nat 0%nat + d * C11) by (unfold slant; cbn; unfold C11; ring).
  split; [apply exp_increasing; rewrite S1, S2, D; lra|].
  rewrite <- exp_0. apply exp_increasing. rewrite A1, S1, S2, D. change (ltau 1%nat) with d.
  replace (- d * ((c 1%nat 0%nat + (c 0%nat 0%nat - c 1%nat 0%nat) / 2 - c 0%nat 0%nat) / d)) with ((c 0%nat 0%nat - c 1%nat 0%nat) / 2) by (field; lra). lra.
Qed.

(* ------------------------------------------------------------------------- *)
(** * A concrete case                                                         *)

(** Two layers of depth 1/2 and 1/4, mu_0 = 1/2. *)
Definition ex_geo : geo := {| q_psa := false; q_mu0 := 1/2; q_chap := fun _ _ => 0 |}.
Definition ex_ltau (k : nat) : R := if (k =? 0)%nat then 1/2 else 1/4.
Definition ex_b0 : beam := {| btau := fun _ => 7; btran := fun _ => 7; as_0 := fun _ => 7; atran := fun _ => 7;
  btau_l := fun _ _ => 7; btran_l := fun _ _ => 7; as_0_l := fun _ _ => 7; atran_l := fun _ _ => 7 |}.
Example ex_beam : let b := beam_params ex_geo 1 2 ex_ltau (fun k _ => if (k =? 0)%nat then 1 else 0) ex_b0 in
  btran b 2%nat = exp (- (3/2)) /\ as_0 b 1%nat = 2 /\ btau_l b 2%nat 0%nat = 2.
Proof.
  intros b. destruct (C30_plane_parallel ex_geo 1 2 ex_ltau (fun k _ => if (k =? 0)%nat then 1 else 0) ex_b0 eq_refl ltac:(cbn; lra)) as [A B].
  fold b in A, B. rewrite (A 2%nat) by lia. destruct (B 1%nat ltac:(lia) ltac:(cbn; lra)) as [-> _].
  destruct (beam_closed ex_geo 1 ex_ltau (fun k _ => if (k =? 0)%nat then 1 else 0) 2 ex_b0) as (_ & _ & C3 & _).
  destruct (C3 2%nat 0%nat ltac:(lia) ltac:(lia)) as [E _]. fold b in E. rewrite E. refine (conj _ (conj _ _)).
  - f_equal. unfold total, ex_ltau, ex_geo. cbn. field.
  - cbn. field.
  - unfold slant. cbn. field.
Qed.
Example ex_positive : (forall k, (k < 2)%nat -> 0 < ex_ltau k) /\ 0 < q_mu0 ex_geo.
Proof. split; [intros [|[|k]] H; cbn; try lra; lia|cbn; lra]. Qed.
(** The depth of the first layer moves. *)
Example ex_path : forall k, (k < 2)%nat -> derivable_pt_lim (fun t => if (k =? 0)%nat then 1/2 + t else 1/4) 0 (if (k =? 0)%nat then 1 else 0).
Proof.
  intros [|[|k]] H; cbn [Nat.eqb]; [|apply dl_const|lia].
  eapply dl_eq; [apply dl_plus; [apply dl_const|exact (derivable_pt_lim_id 0)]|ring].
Qed.
(** Three levels above a planet; a ray of the lowest level. *)
Example ex_shells : let z (i : nat) := if (i =? 0)%nat then 2 else if (i =? 1)%nat then 1 else 0 in
  z 1%nat < z 0%nat /\ z 2%nat < z 1%nat /\ 0 < 4 + z 2%nat /\ on_ray 4 (1/2) (sqrt 28) 2.
Proof.
  cbn. refine (conj _ (conj _ (conj _ (conj _ _)))); try lra. rewrite sqrt_sqrt; lra.
Qed.

Print Assumptions C30_plane_parallel.
Print Assumptions C30_layer_by_layer.
Print Assumptions C30_decreases.
Print Assumptions C30_derivatives.
Print Assumptions C30_adjoint.
Print Assumptions C30_slant_factors.
Print Assumptions C30_spherical_bounds.
Print Assumptions C30_equal_top_levels_refuted.
Print Assumptions C30_spherical_decrease_refuted.
