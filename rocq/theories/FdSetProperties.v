(** C40: the finite-difference settings read back as last given. *)
From Coq Require Import Reals ZArith Bool List Lia Lra.
From Verif Require Import Base HandleModel FdSetModel FdSetSpec FdSetProofs.
Import ListNotations.
Open Scope Z_scope.

(** Every setter but one takes exactly the arguments that name settings of the handle, gives these settings the values passed
    and changes no other; with other arguments it fails. *)
Theorem C40_setters : forall d o m, sane d -> broken o = false ->
  (accepts d o -> exists m', set d o m = Ok m' /\ (forall c v, gives d o c v -> exists_in d c /\ m' c = Some v) /\
     forall c, (forall v, ~ gives d o c v) -> m' c = m c) /\
  (~ accepts d o -> exists e, set d o m = Err e).
Proof.
  intros d o m SN B. split; [|apply set_err]. intros A. destruct (set_ok d o m SN B A) as (m' & E & H1 & H2).
  exists m'. split; [exact E|]. split; [|exact H2]. intros c v G. split; [now apply (gives_exists d o c v)|now apply H1].
Qed.

(** After any history of such calls on a new object every setting but a coefficient reads back as it was last given, or as zero;
    a step size that was never given may not be read, and settings the handle does not have are refused. *)
Theorem C40_history : forall d os, sane d -> forallb (fun o => negb (broken o)) os = true ->
  exists m, calls d os created = Ok m /\
    forall c, is_coef c = false -> element d c ->
      (exists_in d c -> exists w, last_given d c os (created c) w /\ get d m c = match w with Some x => Ok x | None => UB end) /\
      (~ exists_in d c -> exists e, get d m c = Err e).
Proof.
  intros d os SN B. destruct (calls_ok d os SN B created) as (m & E & H). exists m. split; [exact E|].
  intros c NC EL. split; [|intros X; now apply get_err].
  intros X. destruct (last_given_total d c os (created c)) as (w & W). exists w. split; [exact W|].
  rewrite (get_ok d m c SN X NC). now rewrite (H c w W).
Qed.

(** Where the getter of the coefficients answers, and its index is one of a coefficient, the answer is the value last given. *)
Theorem C40_coefficients : forall d os i j k l, sane d -> forallb (fun o => negb (broken o)) os = true ->
  exists_in d (Coef i j k l) -> k < 6 -> exists m, calls d os created = Ok m /\
    (i < n_coef_layer d i -> exists x, last_given d (Coef i j k l) os (Some 0%R) (Some x) /\ get d m (Coef i j k l) = Ok x) /\
    (n_coef_layer d i <= i -> exists e, get d m (Coef i j k l) = Err e).
Proof.
  intros d os i j k l SN B X K6. destruct (calls_ok d os SN B created) as (m & E & H). exists m. split; [exact E|].
  pose proof (exists_alloc d _ SN X) as AL. cbn [exists_in] in X. destruct X as (X1 & X2 & X3 & X4 & X5).
  pose proof (proj2 (range_iff i (n_layers d)) X2) as R1. pose proof (proj2 (range_iff j (n_derivs d)) X3) as R2.
  assert (in_range k 6 = true) as R3 by (apply range_iff; lia).
  unfold get, gcheck. rewrite X1, R1, R2, R3. split; intros Hi.
  - rewrite (proj2 (range_iff i (n_coef_layer d i))) by lia. unfold load. rewrite AL.
    destruct (last_given_total d (Coef i j k l) os (Some 0%R)) as (w & W). rewrite (H _ w W).
    destruct w as [x|]; [now exists x|]. exfalso. clear -W.
    assert (forall os v w, last_given d (Coef i j k l) os v w -> v <> None -> w <> None) as N.
    { clear. intros os v w L. induction L; intros N; auto. apply IHL. discriminate. }
    now apply (N os (Some 0%R) None W).
  - destruct (in_range i (n_coef_layer d i)) eqn:R; [apply range_iff in R; lia|]. now exists 1.
Qed.

(** The setter of the emission of all levels for one derivative uses an index it never set. *)
Theorem C40_levels_setter_refuted : forall d j x m, 0 <= n_layers d -> is_thermal d = true -> 0 <= j < n_derivs d ->
  accepts d (set_levels_b_p_1 j x) /\ gives d (set_levels_b_p_1 j x) (Lev 0 j) (x 0) /\ set d (set_levels_b_p_1 j x) m = UB.
Proof.
  intros d j x m L T J. split; [exact T|]. split; [exists 0; split; [lia|now split]|]. unfold set. cbn [plan]. rewrite T. cbn [check].
  now rewrite (proj2 (Z.leb_le 0 (n_layers d)) L).
Qed.

(** The getter of the coefficients refuses coefficients that exist, ... *)
Theorem C40_coef_refused_refuted : exists d, sane d /\ exists i j k l, exists_in d (Coef i j k l) /\
  forall m, exists e, get d m (Coef i j k l) = Err e.
Proof.
  exists {| n_layers := 2; n_elem := 1; n_coef := 1; n_coef_layer := fun _ => 1; n_kernels := 0; n_params := fun _ => 0;
            is_thermal := false; uses_coef := true; n_derivs := 1 |}.
  split; [split; cbn; intros; lia|]. exists 1, 0, 0, 0. split; [cbn; lia|]. intros m. now exists 1.
Qed.
(** ... and reads outside the array for every index past the last coefficient, and in the scalar case for every element past the first. *)
Theorem C40_coef_outside_refuted : forall d m j, uses_coef d = true -> 0 < n_layers d -> 0 < n_coef_layer d 0 -> 0 <= j < n_derivs d ->
  (forall l, n_coef d <= l \/ l < 0 -> get d m (Coef 0 j 0 l) = UB) /\
  (n_elem d = 1 -> forall k l, 0 < k < 6 -> get d m (Coef 0 j k l) = UB).
Proof.
  intros d m j U L C J. pose proof (proj2 (range_iff j (n_derivs d)) J) as R2.
  assert (in_range 0 (n_layers d) = true) as R1 by (apply range_iff; lia).
  assert (in_range 0 (n_coef_layer d 0) = true) as R3 by (apply range_iff; lia).
  split.
  - intros l H. unfold get, gcheck, load. cbn [allocated]. rewrite U, R1, R2, R3. cbn [andb].
    assert (in_range l (n_coef d) = false) as -> by (apply not_true_iff_false; rewrite range_iff; lia). rewrite andb_false_r. reflexivity.
  - intros E k l H. unfold get, gcheck, load. cbn [allocated]. rewrite U, R1, R2, R3. rewrite (proj2 (range_iff k 6)) by lia. cbn [andb].
    assert (in_range k (n_elem d) = false) as -> by (apply not_true_iff_false; rewrite range_iff; lia). reflexivity.
Qed.
(** The step sizes of a new object are not initialised. *)
Theorem C40_delta_unset_refuted : forall d j, 0 <= j < n_derivs d -> exists_in d (Delta j) /\ get d created (Delta j) = UB.
Proof.
  intros d j J. split; [exact J|]. unfold get, load. cbn [allocated created]. now rewrite (proj2 (range_iff j (n_derivs d)) J).
Qed.

(** A handle, and a history in which one layer is given a perturbation after all were *)
Definition small : shape :=
  {| n_layers := 3; n_elem := 6; n_coef := 5; n_coef_layer := fun i => i + 1; n_kernels := 1; n_params := fun _ => 2;
     is_thermal := true; uses_coef := true; n_derivs := 2 |}.
Example small_sane : sane small.
Proof. split; cbn; intros; lia. Qed.
Example history_ex : exists m,
  calls small [set_delta (fun j => IZR j); set_omega_p_nn (fun i j => IZR (10 * i + j)); set_omega_p_11 7 0 9; set_omega_p_1n 2 (fun j => IZR (- j))] created = Ok m /\
  get small m (Omega 1 1) = Ok 11%R /\ get small m (Omega 2 1) = Ok (-1)%R /\ get small m (Delta 1) = Ok 1%R /\ get small m (Ltau 2 1) = Ok 0%R /\
  get small m (Omega 3 0) = Err 1.
Proof. eexists. split; [reflexivity|]. repeat split; reflexivity. Qed.
Example coef_ex : exists_in small (Coef 1 1 5 1) /\ 1 < n_coef_layer small 1.
Proof. cbn. lia. Qed.

Print Assumptions C40_setters.
Print Assumptions C40_history.
Print Assumptions C40_coefficients.
Print Assumptions C40_levels_setter_refuted.
Print Assumptions C40_coef_refused_refuted.
Print Assumptions C40_coef_outside_refuted.
Print Assumptions C40_delta_unset_refuted.
