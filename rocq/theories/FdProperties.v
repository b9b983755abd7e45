(** C39: derivatives from finite differences. *)
From Coq Require Import Reals Bool Arith Lia Lra List FunctionalExtensionality.
From Verif Require Import Base FdModel FdSpec FdProofs.
Open Scope R_scope.

(** Central differences: every derivative is the difference quotient of its own perturbation, over the value [delta] that was
    set for it, and the inputs are in the end what they were. *)
Theorem C39_central_exact : forall sz solve no delta p nd s I0 old rad, (0 < nE sz)%nat -> 0 <= thr sz ->
  admissible sz s -> solve s = Some rad ->
  (forall j, (j < nd)%nat -> admissible sz (moved sz s 1 (p j)) /\ admissible sz (moved sz s (-1) (p j)) /\
     (exists a, solve (moved sz s 1 (p j)) = Some a) /\ exists b, solve (moved sz s (-1) (p j)) = Some b) ->
  exists out der, fd_solution sz solve no true delta p CENTRAL nd s I0 old = Done s true out der /\
    (forall o, (o < no)%nat -> out o = rad o) /\
    (forall j a b o, (j < nd)%nat -> (o < no)%nat -> solve (moved sz s 1 (p j)) = Some a -> solve (moved sz s (-1) (p j)) = Some b ->
       der j o = (a o - b o) / delta j) /\
    (forall o, (no <= o)%nat -> out o = I0 o /\ forall j, der j o = old j o) /\ (forall j, (nd <= j)%nat -> der j = old j).
Proof.
  intros sz solve no delta p nd s I0 old rad HE HT A R H. unfold fd_solution. rewrite R.
  destruct (central_all sz solve no delta p s HE HT (over no rad I0) nd old A H) as (l & E & L1 & L2). rewrite E.
  eexists _, l. split; [reflexivity|]. unfold over. refine (conj _ (conj _ (conj _ L1))).
  - intros o Ho. apply Nat.ltb_lt in Ho. rewrite Ho. reflexivity.
  - intros j a b o Hj Ho Ea Eb. apply (proj2 (L2 j Hj)); assumption.
  - intros o Ho. apply Nat.ltb_ge in Ho as Ho'. rewrite Ho'. split; [reflexivity|]. intros j. destruct (Nat.lt_ge_cases j nd) as [Hj|Hj]; [apply (proj1 (L2 j Hj)), Ho|rewrite (L1 j Hj); reflexivity].
Qed.

(** Forward and backward differences: derivative [j] is taken with the perturbations of all derivatives up to [j] applied, and
    all of them stay in the inputs. *)
Theorem C39_one_sided_exact : forall sz solve no delta p nd s I0 old rad m f, (0 < nE sz)%nat -> 0 <= thr sz ->
  (m = FORWARD /\ f = 1) \/ (m = BACKWARD /\ f = -1) -> solve s = Some rad ->
  (forall j, (j < nd)%nat -> admissible sz (moved_all sz s f p (S j)) /\ exists a, solve (moved_all sz s f p (S j)) = Some a) ->
  exists out der, fd_solution sz solve no true delta p m nd s I0 old = Done (moved_all sz s f p nd) true out der /\
    (forall o, (o < no)%nat -> out o = rad o) /\
    (forall j a o, (j < nd)%nat -> (o < no)%nat -> solve (moved_all sz s f p (S j)) = Some a -> der j o = (a o - rad o) / delta j) /\
    (forall o, (no <= o)%nat -> out o = I0 o /\ forall j, der j o = old j o) /\ (forall j, (nd <= j)%nat -> der j = old j).
Proof.
  intros sz solve no delta p nd s I0 old rad m f HE HT Hm R H. unfold fd_solution. rewrite R.
  destruct (one_sided_all sz solve no delta p s HE HT m f (over no rad I0) nd old Hm H) as (l & E & L1 & L2). rewrite E.
  eexists _, l. split; [reflexivity|]. unfold over. refine (conj _ (conj _ (conj _ L1))).
  - intros o Ho. apply Nat.ltb_lt in Ho. rewrite Ho. reflexivity.
  - intros j a o Hj Ho Ea. rewrite (proj2 (L2 j Hj) a o Ea Ho). unfold over. apply Nat.ltb_lt in Ho. rewrite Ho. reflexivity.
  - intros o Ho. apply Nat.ltb_ge in Ho as Ho'. rewrite Ho'. split; [reflexivity|]. intros j. destruct (Nat.lt_ge_cases j nd) as [Hj|Hj]; [apply (proj1 (L2 j Hj)), Ho|rewrite (L1 j Hj); reflexivity].
Qed.

Lemma moved_times : forall sz s t h v, moved sz s t (times h v) = moved sz s (t * h) v.
Proof.
  intros sz s t h v. unfold moved, times. cbn [top_p bot_p surf_p lev_p coef_p omega_p ltau_p amp_p par_p].
  f_equal; try (repeat (apply functional_extensionality; intros ?)); repeat match goal with |- context [if ?b then _ else _] => destruct b end; ring.
Qed.
(** What each method tends to when the perturbation is [h] times a direction, [delta] is [h], and [h] goes to zero: the
    derivative, its negative, and twice the derivative. *)
Definition tends_to (m : fd_method) : R := match m with FORWARD => 1 | BACKWARD => -1 | CENTRAL => 2 end.
Theorem C39_limits : forall m sz solve no s v o D, (0 < nE sz)%nat -> 0 <= thr sz -> (o < no)%nat -> slope sz solve s v o D ->
  forall eps, 0 < eps -> exists h0, 0 < h0 /\ forall h, 0 < h < h0 -> forall I0 old,
  exists s' out der, fd_solution sz solve no true (fun _ => h) (fun _ => times h v) m 1 s I0 old = Done s' true out der /\ Rabs (der 0%nat o - tends_to m * D) < eps.
Proof.
  intros m sz solve no s v o D HE HT Ho (F & e & He & H & Dv) eps Heps.
  destruct (Dv (eps / 2) ltac:(lra)) as [d Hd]. destruct d as [d Hd0]. cbn in Hd.
  assert (forall t, t <> 0 -> Rabs t < d -> Rabs ((F t o - F 0 o) / t - D) < eps / 2) as Q.
  { intros t T1 T2. specialize (Hd t T1 T2). rewrite Rplus_0_l in Hd. exact Hd. }
  destruct (H 0 ltac:(rewrite Rabs_R0; exact He)) as [A0 S0]. rewrite moved_0 in A0, S0.
  exists (Rmin d e). split; [apply Rmin_glb_lt; assumption|]. intros h [Hh1 Hh2] I0 old.
  assert (h < d /\ h < e) as [Hd' He'] by (split; eapply Rlt_le_trans; try exact Hh2; [apply Rmin_l|apply Rmin_r]).
  assert (forall t, t * h = h \/ t * h = - h -> admissible sz (moved sz s t (times h v)) /\ solve (moved sz s t (times h v)) = Some (F (t * h))) as K.
  { intros t T. rewrite moved_times. apply H. destruct T as [-> | ->]; [rewrite Rabs_pos_eq by lra; exact He'|rewrite Rabs_Ropp, Rabs_pos_eq by lra; exact He']. }
  destruct (K 1 ltac:(left; ring)) as [A1 S1]. destruct (K (-1) ltac:(right; ring)) as [A2 S2].
  pose proof (Q h ltac:(lra) ltac:(rewrite Rabs_pos_eq by lra; exact Hd')) as Qp. pose proof (Q (- h) ltac:(lra) ltac:(rewrite Rabs_Ropp, Rabs_pos_eq by lra; exact Hd')) as Qm.
  rewrite Rmult_1_l in S1. replace (-1 * h) with (- h) in S2 by ring.
  destruct m.
  - destruct (C39_one_sided_exact sz solve no (fun _ => h) (fun _ => times h v) 1 s I0 old (F 0) FORWARD 1 HE HT ltac:(left; split; reflexivity) S0) as (out & der & E & _ & L & _).
    { intros j Hj. assert (j = 0%nat) as -> by lia. cbn [moved_all]. split; [exact A1|exists (F h); exact S1]. }
    eexists. exists out, der. split; [exact E|]. rewrite (L 0%nat (F h) o ltac:(lia) Ho S1). unfold tends_to. rewrite Rmult_1_l. lra.
  - destruct (C39_one_sided_exact sz solve no (fun _ => h) (fun _ => times h v) 1 s I0 old (F 0) BACKWARD (-1) HE HT ltac:(right; split; reflexivity) S0) as (out & der & E & _ & L & _).
    { intros j Hj. assert (j = 0%nat) as -> by lia. cbn [moved_all]. split; [exact A2|exists (F (- h)); exact S2]. }
    eexists. exists out, der. split; [exact E|]. rewrite (L 0%nat (F (- h)) o ltac:(lia) Ho S2). unfold tends_to.
    replace ((F (- h) o - F 0 o) / h - -1 * D) with (- ((F (- h) o - F 0 o) / - h - D)) by (field; lra). rewrite Rabs_Ropp. lra.
  - destruct (C39_central_exact sz solve no (fun _ => h) (fun _ => times h v) 1 s I0 old (F 0) HE HT A0 S0) as (out & der & E & _ & L & _).
    { intros j Hj. refine (conj A1 (conj A2 (conj _ _))); [exists (F h); exact S1|exists (F (- h)); exact S2]. }
    exists s, out, der. split; [exact E|]. rewrite (L 0%nat (F h) (F (- h)) o ltac:(lia) Ho S1 S2). unfold tends_to.
    replace ((F h o - F (- h) o) / h - 2 * D) with (((F h o - F 0 o) / h - D) + ((F (- h) o - F 0 o) / - h - D)) by (field; lra).
    eapply Rle_lt_trans; [apply Rabs_triang|lra].
Qed.

(* ------------------------------------------------------------------------- *)
(** * A concrete case: one layer, no kernels, radiances that depend on the optical thickness squared and on omega *)
Definition sz1 : sizes := {| nL := 1; nE := 1; nC := 1; nK := 0; kp := fun _ => 0%nat; thermal := false; thr := 1/8 |}.
Definition s1 (w t : R) : inputs := {| top := 0; bot := 0; surf := 0; lev := fun _ => 0; ncoef := fun _ => 1%nat; coef := fun _ _ _ => 1; omega := fun _ => w; ltau := fun _ => t; amp := fun _ => 0; par := fun _ _ => 0 |}.
Definition v1 (w t : R) : step := {| top_p := 0; bot_p := 0; surf_p := 0; lev_p := fun _ => 0; coef_p := fun _ _ _ => 0; omega_p := fun _ => w; ltau_p := fun _ => t; amp_p := fun _ => 0; par_p := fun _ _ => 0 |}.
Definition toy (s : inputs) : option field := Some (fun _ => omega s 0%nat + ltau s 0%nat * ltau s 0%nat).
Lemma adm1 : forall w t v c, 0 <= w + c * omega_p v 0%nat <= 7/8 -> 0 < t + c * ltau_p v 0%nat -> admissible sz1 (moved sz1 (s1 w t) c v).
Proof.
  intros w t v c W T. refine (conj _ (conj _ _)); [discriminate| |intros i Hi; cbn in Hi; lia].
  intros i Hi. cbn in Hi. assert (i = 0%nat) as -> by lia. cbn. refine (conj _ (conj _ (conj _ _))); [lia|lia|lra|lra].
Qed.
Lemma adm0 : forall w t, 0 <= w <= 7/8 -> 0 < t -> admissible sz1 (s1 w t).
Proof. intros w t W T. rewrite <- (moved_0 sz1 (s1 w t) (v1 0 0)). apply adm1; cbn; lra. Qed.
Example limits_ex : slope sz1 toy (s1 (1/2) 1) (v1 0 1) 0 2.
Proof.
  exists (fun t _ => 1/2 + (1 + t) * (1 + t)), (1/2). split; [lra|]. split.
  - intros t Ht. apply Rabs_def2 in Ht. split; [apply adm1; cbn; lra|]. unfold toy. f_equal. apply functional_extensionality. intros _. cbn. ring.
  - intros e He. exists (mkposreal e He). intros h Hh He'. cbn in He'.
    replace ((1 / 2 + (1 + (0 + h)) * (1 + (0 + h)) - (1 / 2 + (1 + 0) * (1 + 0))) / h - 2) with h by (field; exact Hh). exact He'.
Qed.
(** Two derivatives by central differences *)
Example central_ex : forall I0 old, exists out der,
  fd_solution sz1 toy 1 true (fun _ => 1/4) (fun j => if Nat.eqb j 0 then v1 (1/4) 0 else v1 0 (1/4)) CENTRAL 2 (s1 (1/2) 1) I0 old = Done (s1 (1/2) 1) true out der /\
  out 0%nat = 3/2 /\ der 0%nat 0%nat = 2 /\ der 1%nat 0%nat = 4.
Proof.
  intros I0 old.
  destruct (C39_central_exact sz1 toy 1 (fun _ => 1/4) (fun j => if Nat.eqb j 0 then v1 (1/4) 0 else v1 0 (1/4)) 2 (s1 (1/2) 1) I0 old _ (le_n 1) ltac:(cbn; lra) (adm0 (1/2) 1 ltac:(lra) ltac:(lra)) eq_refl)
    as (out & der & E & A & B & _).
  { intros j Hj. refine (conj _ (conj _ (conj _ _))); [| |eexists; reflexivity|eexists; reflexivity]; destruct (Nat.eqb j 0); apply adm1; cbn; lra. }
  exists out, der. split; [exact E|]. rewrite (A 0%nat) by lia. rewrite (B 0%nat _ _ 0%nat ltac:(lia) ltac:(lia) eq_refl eq_refl), (B 1%nat _ _ 0%nat ltac:(lia) ltac:(lia) eq_refl eq_refl). cbn. refine (conj _ (conj _ _)); field.
Qed.

(* ------------------------------------------------------------------------- *)
(** * What does not hold *)

(** Forward differences: the second derivative contains the perturbation of the first, and the inputs stay perturbed. *)
Theorem C39_forward_second_refuted : forall h I0 old, 0 < h < 1/4 -> exists s' out der,
  fd_solution sz1 (fun s => Some (fun _ => omega s 0%nat)) 1 true (fun _ => h) (fun j => if Nat.eqb j 0 then v1 h 0 else v1 0 h) FORWARD 2 (s1 (1/2) 1) I0 old = Done s' true out der /\
  slope sz1 (fun s => Some (fun _ => omega s 0%nat)) (s1 (1/2) 1) (v1 0 1) 0 0 /\ der 1%nat 0%nat = 1 /\ omega s' 0%nat = 1/2 + h.
Proof.
  intros h I0 old Hh.
  set (p := fun j => if Nat.eqb j 0 then v1 h 0 else v1 0 h). set (solve := fun s => Some (fun _ : nat => omega s 0%nat)).
  destruct (C39_one_sided_exact sz1 solve 1 (fun _ => h) p 2 (s1 (1/2) 1) I0 old _ FORWARD 1 (le_n 1) ltac:(cbn; lra) ltac:(left; split; reflexivity) eq_refl) as (out & der & E & _ & B & _).
  { intros j Hj. split; [|eexists; reflexivity]. destruct j as [|[|j]]; [| |lia]; cbn [moved_all].
    - apply adm1; cbn; lra.
    - refine (conj _ (conj _ _)); [discriminate| |intros i Hi; cbn in Hi; lia]. intros i Hi. cbn in Hi. assert (i = 0%nat) as -> by lia. cbn.
      refine (conj _ (conj _ (conj _ _))); [lia|lia|lra|lra]. }
  eexists. exists out, der. refine (conj E (conj _ (conj _ _))).
  - exists (fun _ _ => 1/2), (1/2). split; [lra|]. split.
    + intros t Ht. apply Rabs_def2 in Ht. split; [apply adm1; cbn; lra|]. unfold solve. f_equal. apply functional_extensionality. intros _. cbn. ring.
    + apply derivable_pt_lim_const.
  - rewrite (B 1%nat _ 0%nat ltac:(lia) ltac:(lia) eq_refl). cbn. field. lra.
  - cbn. ring.
Qed.
(** Backward differences have the wrong sign. *)
Theorem C39_backward_refuted : forall h I0 old, 0 < h < 1/4 -> exists s' out der,
  fd_solution sz1 (fun s => Some (fun _ => omega s 0%nat)) 1 true (fun _ => h) (fun _ => times h (v1 1 0)) BACKWARD 1 (s1 (1/2) 1) I0 old = Done s' true out der /\
  slope sz1 (fun s => Some (fun _ => omega s 0%nat)) (s1 (1/2) 1) (v1 1 0) 0 1 /\ der 0%nat 0%nat = -1.
Proof.
  intros h I0 old Hh. set (solve := fun s => Some (fun _ : nat => omega s 0%nat)).
  destruct (C39_one_sided_exact sz1 solve 1 (fun _ => h) (fun _ => times h (v1 1 0)) 1 (s1 (1/2) 1) I0 old _ BACKWARD (-1) (le_n 1) ltac:(cbn; lra) ltac:(right; split; reflexivity) eq_refl) as (out & der & E & _ & B & _).
  { intros j Hj. assert (j = 0%nat) as -> by lia. cbn [moved_all]. split; [|eexists; reflexivity]. apply adm1; cbn; lra. }
  eexists. exists out, der. refine (conj E (conj _ _)).
  - exists (fun t _ => 1/2 + t), (1/8). split; [lra|]. split.
    + intros t Ht. apply Rabs_def2 in Ht. split; [apply adm1; cbn; lra|]. unfold solve. f_equal. apply functional_extensionality. intros _. cbn. ring.
    + intros e He. exists (mkposreal e He). intros x Hx _. replace ((1 / 2 + (0 + x) - (1 / 2 + 0)) / x - 1) with 0 by (field; exact Hx). rewrite Rabs_R0. exact He.
  - rewrite (B 0%nat _ 0%nat ltac:(lia) ltac:(lia) eq_refl). cbn. field. lra.
Qed.
(** Central differences give twice the derivative, when [delta] is the size of the perturbation as it must be for the others. *)
Theorem C39_central_refuted : forall h I0 old, 0 < h < 1/4 -> exists out der,
  fd_solution sz1 (fun s => Some (fun _ => omega s 0%nat)) 1 true (fun _ => h) (fun _ => times h (v1 1 0)) CENTRAL 1 (s1 (1/2) 1) I0 old = Done (s1 (1/2) 1) true out der /\
  der 0%nat 0%nat = 2.
Proof.
  intros h I0 old Hh. set (solve := fun s => Some (fun _ : nat => omega s 0%nat)).
  destruct (C39_central_exact sz1 solve 1 (fun _ => h) (fun _ => times h (v1 1 0)) 1 (s1 (1/2) 1) I0 old _ (le_n 1) ltac:(cbn; lra) (adm0 (1/2) 1 ltac:(lra) ltac:(lra)) eq_refl) as (out & der & E & _ & B & _).
  { intros j Hj. refine (conj _ (conj _ (conj _ _))); [| |eexists; reflexivity|eexists; reflexivity]; apply adm1; cbn; lra. }
  exists out, der. split; [exact E|]. rewrite (B 0%nat _ _ 0%nat ltac:(lia) ltac:(lia) eq_refl eq_refl). cbn. field. lra.
Qed.
(** After an error the inputs stay perturbed. *)
Theorem C39_error_restores_refuted : forall I0 old, exists out der,
  fd_solution sz1 toy 1 true (fun _ => 1) (fun _ => v1 (1/2) 0) CENTRAL 1 (s1 (1/4) 1) I0 old = Done (moved sz1 (s1 (1/4) 1) 1 (v1 (1/2) 0)) false out der /\
  omega (moved sz1 (s1 (1/4) 1) 1 (v1 (1/2) 0)) 0%nat = 3/4.
Proof.
  intros I0 old. eexists _, _. split; [|cbn; field]. unfold fd_solution. cbn [toy derivatives]. unfold derivative.
  rewrite (perturb_moves sz1 1 (v1 (1/2) 0) (s1 (1/4) 1) (le_n 1) ltac:(cbn; lra)) by (apply adm1; cbn; lra).
  cbn [negb toy].
  assert (perturb sz1 (-2) (v1 (1/2) 0) (moved sz1 (s1 (1/4) 1) 1 (v1 (1/2) 0)) = (moved sz1 (s1 (1/4) 1) 1 (v1 (1/2) 0), false)) as ->.
  { unfold perturb. apply (then_ok _ _ _ (moved sz1 (s1 (1/4) 1) 1 (v1 (1/2) 0))); [reflexivity|].
    apply (then_ok _ _ _ (moved sz1 (s1 (1/4) 1) 1 (v1 (1/2) 0))).
    - cbn. unfold then_, set_coef, moved, s1. cbn. f_equal. f_equal; repeat (apply functional_extensionality; intros ?); unfold put;
        repeat match goal with |- context [Nat.eqb ?x 0] => destruct (Nat.eqb x 0) end; try reflexivity;
        repeat match goal with |- context [if ?b then _ else _] => destruct b end; ring.
    - unfold then_. cbn. unfold then_, set_omega. cbn. unfold lt0. destruct (Rlt_dec _ 0) as [_|F]; [reflexivity|]. exfalso. apply F. lra. }
  reflexivity.
Qed.
Lemma perturb1 : forall f w s, ncoef s 0%nat = 1%nat -> 0 < ltau s 0%nat -> 0 <= omega s 0%nat + f * w <= 1 ->
  exists s', perturb sz1 f (v1 w 0) s = (s', true) /\ omega s' 0%nat = adjust_down (1/8) (omega s 0%nat + f * w) /\ ncoef s' 0%nat = 1%nat /\ ltau s' 0%nat = ltau s 0%nat.
Proof.
  intros f w s N T W. eexists. unfold perturb. split.
  - eapply then_ok; [reflexivity|].
    eapply then_ok; [apply coef_part; intros i Hi; cbn in Hi; assert (i = 0%nat) as -> by lia; rewrite N; cbn; split; [lia|lia]|].
    eapply then_ok; [cbn; unfold then_, set_omega; cbn; rewrite lt0_no, gt1_no by lra; reflexivity|].
    eapply then_ok; [apply ltau_part; intros i Hi; cbn in Hi; assert (i = 0%nat) as -> by lia; cbn; rewrite Rmult_0_r, Rplus_0_r; exact T|]. reflexivity.
  - cbn. refine (conj eq_refl (conj N _)). ring.
Qed.
(** At the largest single scattering albedo that the model works with, central differences change the albedo for good and
    report success. *)
Theorem C39_central_restores_refuted : forall I0 old, exists s' out der,
  fd_solution sz1 toy 1 true (fun _ => 1) (fun _ => v1 (-1/16) 0) CENTRAL 1 (s1 (7/8) 1) I0 old = Done s' true out der /\ omega s' 0%nat = 13/16.
Proof.
  intros I0 old. unfold fd_solution. cbn [toy derivatives]. unfold derivative.
  assert (forall x, x <= 7/8 -> adjust_down (1/8) x = x) as J by (intros x Hx; apply adjust_no; lra).
  destruct (perturb1 1 (-1/16) (s1 (7/8) 1) eq_refl ltac:(cbn; lra) ltac:(cbn; lra)) as (x & -> & X1 & X2 & X3). cbn [s1 omega ltau] in X1, X3. rewrite J in X1 by lra. cbn [negb toy].
  destruct (perturb1 (-2) (-1/16) x X2 ltac:(rewrite X3; lra) ltac:(rewrite X1; lra)) as (y & -> & Y1 & Y2 & Y3). cbn [toy].
  assert (omega y 0%nat = 7/8) as Y1'. { rewrite Y1, X1. unfold adjust_down. destruct (Rlt_dec _ _) as [_|F]; lra. }
  destruct (perturb1 1 (-1/16) y Y2 ltac:(rewrite Y3, X3; lra) ltac:(rewrite Y1'; lra)) as (z & -> & Z1 & Z2 & Z3). rewrite Y1', J in Z1 by lra.
  eexists z, _, _. split; [reflexivity|]. rewrite Z1. field.
Qed.
(** Asking for anything but radiances is undefined behaviour. *)
Theorem C39_other_outputs_refuted : forall I0 old m,
  fd_solution sz1 toy 1 false (fun _ => 1) (fun _ => v1 (1/16) 0) m 1 (s1 (1/2) 1) I0 old = Undefined.
Proof.
  intros I0 old m. unfold fd_solution. cbn [toy derivatives]. unfold derivative.
  destruct m; rewrite (perturb_moves sz1 _ (v1 (1/16) 0) (s1 (1/2) 1) (le_n 1) ltac:(cbn; lra)) by (apply adm1; cbn; lra); reflexivity.
Qed.

Print Assumptions C39_central_exact.
Print Assumptions C39_one_sided_exact.
Print Assumptions C39_limits.
Print Assumptions C39_forward_second_refuted.
Print Assumptions C39_backward_refuted.
Print Assumptions C39_central_refuted.
Print Assumptions C39_error_restores_refuted.
Print Assumptions C39_central_restores_refuted.
Print Assumptions C39_other_outputs_refuted.
