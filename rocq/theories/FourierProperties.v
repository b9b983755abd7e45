(** C23, C24: the azimuth series. *)
From Coq Require Import ZArith List Bool Lia SpecFloat Arith Reals.
From Verif Require Import Dbl DblOrder DerivsModel FourierModel FourierSpec FourierProofs.
Import ListNotations.
Open Scope nat_scope.

(* ------------------------------------------------------------------------- *)
(** * C23: what is summed and when the sum stops                              *)

Definition stokes_ok (g : fcfg) : Prop := 1 <= f_stokes g <= 4.

(** The reported number of terms is at most the full number, every one of those terms was
    computed, and each requested output is the sum, in order, of exactly those terms on top
    of the initial content; everything outside the requested outputs is left alone. *)
Theorem C23_sum_of_reported_terms : forall g term r0 c r, stokes_ok g ->
  solve g term r0 = Some (c, r) ->
  c <= f_four g /\ (forall i, i < c -> term i <> None) /\
  (forall j k l s, output g j k l -> s < f_stokes g ->
     r_p r j k l s = (if f_up g then partial g (fun i => c_p (tm term i)) (r_p r0) c j k l s else r_p r0 j k l s) /\
     r_m r j k l s = (if f_down g then partial g (fun i => c_m (tm term i)) (r_m r0) c j k l s else r_m r0 j k l s) /\
     (forall q, q < f_derivs g ->
        r_pl r q j k l s = (if f_up g then partial g (fun i j => c_pl (tm term i) j q) (r_pl r0 q) c j k l s else r_pl r0 q j k l s) /\
        r_ml r q j k l s = (if f_down g then partial g (fun i j => c_ml (tm term i) j q) (r_ml r0 q) c j k l s else r_ml r0 q j k l s))) /\
  (forall j k l s, ~ (output g j k l /\ s < f_stokes g) ->
     r_p r j k l s = r_p r0 j k l s /\ r_m r j k l s = r_m r0 j k l s) /\
  (forall q j k l s, ~ (q < f_derivs g /\ output g j k l /\ s < f_stokes g) ->
     r_pl r q j k l s = r_pl r0 q j k l s /\ r_ml r q j k l s = r_ml r0 q j k l s).
Proof.
  intros g term r0 c r NS E. destruct (series_spec g term r0 NS (f_four g) 0 0 c r eq_refl E) as (-> & B & T & _ & _).
  split; [lia|]. split; [intros; apply T; lia|].
  assert (forall j k l, inside g j k l = true <-> output g j k l) as IO.
  { intros. unfold inside. rewrite mem_in. apply cells_in. }
  assert (forall j k l s, ~ (output g j k l /\ s < f_stokes g) -> inside g j k l && (s <? f_stokes g) = false) as OUT.
  { intros j k l s N. destruct (inside g j k l) eqn:I, (Nat.ltb_spec s (f_stokes g)); auto. exfalso. apply N. split; auto. now apply IO. }
  split; [|split].
  - intros j k l s O L. rewrite after_p, after_m by auto. rewrite (proj2 (IO j k l) O). destruct (Nat.ltb_spec s (f_stokes g)); [|lia].
    cbn [andb]. rewrite !andb_true_r. split; [reflexivity|]. split; [reflexivity|]. intros q Q.
    rewrite after_pl, after_ml by auto. rewrite (proj2 (IO j k l) O). destruct (Nat.ltb_spec s (f_stokes g)), (Nat.ltb_spec q (f_derivs g)); try lia.
    cbn [andb]. rewrite !andb_true_r. split; reflexivity.
  - intros j k l s N. rewrite after_p, after_m by auto. specialize (OUT j k l s N).
    destruct (inside g j k l), (s <? f_stokes g); cbn [andb] in *; try discriminate OUT; rewrite ?andb_false_r; split; reflexivity.
  - intros q j k l s N. rewrite after_pl, after_ml by auto.
    assert (inside g j k l && (q <? f_derivs g) && (s <? f_stokes g) = false) as K.
    { destruct (inside g j k l) eqn:I, (Nat.ltb_spec q (f_derivs g)), (Nat.ltb_spec s (f_stokes g)); auto. exfalso. apply N. split; auto. split; auto. now apply IO. }
    destruct (inside g j k l), (q <? f_derivs g), (s <? f_stokes g); cbn [andb] in *; try discriminate K; rewrite ?andb_false_r; cbn [andb]; rewrite ?andb_false_r; split; reflexivity.
Qed.

(** A series cut short ends in two terms, neither of them the first, that each changed every
    requested intensity by less than the tolerance relative to the running sum (a running sum
    of zero counts as settled). *)
Theorem C23_stops_only_converged : forall g term r0 c r, stokes_ok g -> dlt d_zero (f_tol g) = true ->
  solve g term r0 = Some (c, r) -> c < f_four g ->
  3 <= c /\ (no_nan g (tm term) (r_p r0) (r_m r0) (c - 1) -> small g (tm term) (r_p r0) (r_m r0) (c - 1)) /\
  (no_nan g (tm term) (r_p r0) (r_m r0) (c - 2) -> small g (tm term) (r_p r0) (r_m r0) (c - 2)).
Proof.
  intros g term r0 c r NS T E L. destruct (series_spec g term r0 NS (f_four g) 0 0 c r eq_refl E) as (-> & B & _ & D & _).
  destruct (D ltac:(lia)) as (C2 & A1 & A2).
  assert (0 < c - 2) as C3 by (unfold conv in A2; apply andb_prop in A2 as [A2 _]; now apply Nat.ltb_lt in A2).
  split; [lia|]. split; intros N; [eapply conv_iff; eauto; lia|eapply conv_iff; eauto].
Qed.

(** It is cut at the first opportunity: no later than right after two such terms. *)
Theorem C23_stops_when_converged : forall g term r0 c r i, stokes_ok g -> dlt d_zero (f_tol g) = true ->
  solve g term r0 = Some (c, r) -> 2 <= i ->
  no_nan g (tm term) (r_p r0) (r_m r0) (i - 1) -> small g (tm term) (r_p r0) (r_m r0) (i - 1) ->
  no_nan g (tm term) (r_p r0) (r_m r0) i -> small g (tm term) (r_p r0) (r_m r0) i ->
  c <= S i.
Proof.
  intros g term r0 c r i NS T E I N1 S1 N2 S2. destruct (series_spec g term r0 NS (f_four g) 0 0 c r eq_refl E) as (_ & _ & _ & _ & F).
  apply F; try lia; apply conv_iff; auto; lia.
Qed.

(** Without a positive tolerance all terms are summed. *)
Theorem C23_zero_tolerance : forall g term r0 c r, stokes_ok g -> dlt d_zero (f_tol g) = false ->
  solve g term r0 = Some (c, r) -> c = f_four g.
Proof.
  intros g term r0 c r NS T E. destruct (series_spec g term r0 NS (f_four g) 0 0 c r eq_refl E) as (-> & B & _ & D & _).
  destruct (Nat.lt_ge_cases c (f_four g)) as [K|K]; [|lia]. destruct (D ltac:(lia)) as (_ & A & _).
  rewrite conv_zero_tol in A by exact T. discriminate A.
Qed.

(** The call fails only if one of the terms fails. *)
Theorem C23_fails_only_with_a_term : forall g term r0, stokes_ok g ->
  (forall i, i < f_four g -> term i <> None) -> exists c r, solve g term r0 = Some (c, r).
Proof. intros. apply (series_fails g term r0 H (f_four g) 0 0). intros; apply H0; lia. Qed.

(** Non-trivial cases, and two ways in which the English claim "every output" fails. *)
Definition d (x : bool) := if x then S754_finite false 4503599627370496 (-52) else d_zero.
Definition quarter := S754_finite false 4503599627370496 (-54).
Definition demo (mus stokes derivs : nat) (tol : dbl) : fcfg :=
  {| f_levels := 1; f_mus := mus; f_first_mu := 0; f_phis := 1; f_stokes := stokes; f_derivs := derivs; f_four := 5; f_up := true; f_down := false;
     f_tol := tol; f_cos := fun _ _ _ => d true; f_sin := fun _ _ _ => d true |}.
Definition zero_rad : rad := {| r_p := fun _ _ _ _ => d_zero; r_m := fun _ _ _ _ => d_zero; r_pl := fun _ _ _ _ _ => d_zero; r_ml := fun _ _ _ _ _ => d_zero; r_e := d_zero |}.
Definition mk (f : nat -> nat -> dbl) (fl : nat -> nat -> dbl) (i : nat) : option component :=
  Some {| c_p := fun _ => f i; c_m := fun _ _ => d_zero; c_pl := fun _ _ => fl i; c_ml := fun _ _ _ => d_zero |}.
Definition none (_ _ : nat) := d_zero.
(** 1, 1, 1, 1/4 ...: runs to the end because only the last ratio is small. *)
Example C23_series_runs : option_map fst (solve (demo 1 1 0 quarter) (mk (fun _ _ => d true) none) zero_rad) = Some 5.
Proof. vm_compute. reflexivity. Qed.
(** 1, 1, 0, 0, 0: stops after the second zero term. *)
Example C23_series_stops : option_map fst (solve (demo 1 1 0 quarter) (mk (fun i _ => d (i <? 2)) none) zero_rad) = Some 4.
Proof. vm_compute. reflexivity. Qed.

(** A NaN at one angle hides the terms of the angles before it: the series stops although a
    finite output is still changing by a third of its value. *)
Theorem C23_nan_masks_refuted : exists g term r0 c r, stokes_ok g /\ dlt d_zero (f_tol g) = true /\
  solve g term r0 = Some (c, r) /\ c < f_four g /\ output g 0 0 0 /\
  ~ settled g (up (tm term)) (r_p r0) (c - 1) 0 0 0 /\ ~ ratio_nan g (up (tm term)) (r_p r0) (c - 1) 0 0 0.
Proof.
  set (g := demo 3 1 0 quarter). set (term := mk (fun _ k => match k with 0 => d true | 1 => S754_nan | _ => d_zero end) none).
  assert (option_map fst (solve g term zero_rad) = Some 3) as E by (vm_compute; reflexivity).
  destruct (solve g term zero_rad) as [[c r]|] eqn:S; [|discriminate E]. injection E as ->.
  exists g, term, zero_rad, 3, r. split; [unfold stokes_ok; cbn; lia|]. split; [reflexivity|]. split; [exact S|]. split; [cbn; lia|].
  split; [unfold output; cbn; lia|]. split.
  - intros [K|K]; vm_compute in K; discriminate K.
  - intros [_ K]. vm_compute in K. discriminate K.
Qed.

(** Only intensities are tested: other Stokes parameters and derivatives may still change by
    their full size when the series stops. *)
Theorem C23_other_outputs_untested_refuted : exists g term r0 c r, stokes_ok g /\ dlt d_zero (f_tol g) = true /\
  solve g term r0 = Some (c, r) /\ c < f_four g /\ output g 0 0 0 /\
  dlt (dabs (ddiv (contribution g (up (tm term)) (c - 1) 0 0 0 1) (partial g (up (tm term)) (r_p r0) c 0 0 0 1))) (f_tol g) = false /\
  dlt (dabs (ddiv (contribution g (fun i j => c_pl (tm term i) j 0) (c - 1) 0 0 0 0) (partial g (fun i j => c_pl (tm term i) j 0) (r_pl r0 0) c 0 0 0 0))) (f_tol g) = false.
Proof.
  set (g := demo 1 3 1 quarter). set (term := mk (fun i s => d (s =? 1)) (fun _ _ => d true)).
  assert (option_map fst (solve g term zero_rad) = Some 3) as E by (vm_compute; reflexivity).
  destruct (solve g term zero_rad) as [[c r]|] eqn:S; [|discriminate E]. injection E as ->.
  exists g, term, zero_rad, 3, r. split; [unfold stokes_ok; cbn; lia|]. split; [reflexivity|]. split; [exact S|]. split; [cbn; lia|].
  split; [unfold output; cbn; lia|]. split; vm_compute; reflexivity.
Qed.

(* ------------------------------------------------------------------------- *)
(** * C24: Stokes symmetry of the expansion                                   *)

(** Over any number type: the entries of stream [q] are multiplied by [a] for I and Q and by
    [b] for U and V; nothing is written past the last stream. *)
Theorem C24_expansion : forall T (mul : T -> T -> T) n_quad n_stokes a b v1 v2, 1 <= n_stokes <= 4 ->
  (forall q s, q < n_quad -> s < n_stokes ->
     azimuth_modes mul n_quad n_stokes a b v1 v2 (q * n_stokes + s) = mul (v1 (q * n_stokes + s)) (if s <? 2 then a else b)) /\
  (forall x, n_quad * n_stokes <= x -> azimuth_modes mul n_quad n_stokes a b v1 v2 x = v2 x).
Proof.
  intros T mul nq ns a b v1 v2 H. split.
  - intros q s Q S. rewrite modes_at by auto.
    assert (q * ns + s < nq * ns) as L by nia. apply Nat.ltb_lt in L. rewrite L. unfold factor.
    rewrite Nat.add_comm, Nat.mod_add, Nat.mod_small by lia. reflexivity.
  - intros x X. rewrite modes_at by auto. destruct (Nat.ltb_spec x (nq * ns)); [lia|reflexivity].
Qed.

(** The reverse-mode routine adds the transposed product. *)
Theorem C24_reverse_expansion : forall T (mul add : T -> T -> T) n_quad n_stokes a b v1 v2, 1 <= n_stokes <= 4 ->
  (forall q s, q < n_quad -> s < n_stokes ->
     azimuth_modes_a mul add n_quad n_stokes a b v1 v2 (q * n_stokes + s) =
       add (v1 (q * n_stokes + s)) (mul (v2 (q * n_stokes + s)) (if s <? 2 then a else b))) /\
  (forall x, n_quad * n_stokes <= x -> azimuth_modes_a mul add n_quad n_stokes a b v1 v2 x = v1 x).
Proof.
  intros T mul add nq ns a b v1 v2 H. split.
  - intros q s Q S. rewrite modes_a_at by auto.
    assert (q * ns + s < nq * ns) as L by nia. apply Nat.ltb_lt in L. rewrite L. unfold factor.
    rewrite Nat.add_comm, Nat.mod_add, Nat.mod_small by lia. reflexivity.
  - intros x X. rewrite modes_a_at by auto. destruct (Nat.ltb_spec x (nq * ns)); [lia|reflexivity].
Qed.

(** Inner products over the reals: forward and reverse expansion are adjoint, so the reverse
    pass returns exact gradients of anything built on the expansion. *)
Definition dot (n : nat) (u v : nat -> R) : R := fold_right (fun i s => (u i * v i + s)%R) 0%R (seq 0 n).
Theorem C24_reverse_is_adjoint : forall n_quad n_stokes a b u w g0, 1 <= n_stokes <= 4 ->
  dot (n_quad * n_stokes) w (azimuth_modes Rmult n_quad n_stokes a b u (fun _ => 0%R)) =
  (dot (n_quad * n_stokes) (azimuth_modes_a Rmult Rplus n_quad n_stokes a b g0 w) u - dot (n_quad * n_stokes) g0 u)%R.
Proof.
  intros nq ns a b u w g0 H. unfold dot.
  assert (forall l, (forall i, In i l -> i < nq * ns) ->
    fold_right (fun i s => (w i * azimuth_modes Rmult nq ns a b u (fun _ => 0%R) i + s)%R) 0%R l =
    (fold_right (fun i s => (azimuth_modes_a Rmult Rplus nq ns a b g0 w i * u i + s)%R) 0%R l - fold_right (fun i s => (g0 i * u i + s)%R) 0%R l)%R) as K.
  { induction l as [|i l IH]; intros L; [cbn; ring|]. cbn [fold_right]. rewrite IH by (intros; apply L; right; auto).
    rewrite modes_at, modes_a_at by auto. assert (i < nq * ns) as I by (apply L; left; auto). apply Nat.ltb_lt in I. rewrite I. ring. }
  apply K. intros i I. apply in_seq in I. lia.
Qed.

Example C24_two_streams :
  map (azimuth_modes Z.mul 2 3 5%Z 7%Z (fun i => Z.of_nat i + 1)%Z (fun _ => 0%Z)) (seq 0 7) = [5; 10; 21; 20; 25; 42; 0]%Z.
Proof. reflexivity. Qed.

Print Assumptions C23_sum_of_reported_terms.
Print Assumptions C23_stops_only_converged.
Print Assumptions C23_stops_when_converged.
Print Assumptions C23_zero_tolerance.
Print Assumptions C23_fails_only_with_a_term.
Print Assumptions C23_nan_masks_refuted.
Print Assumptions C23_other_outputs_untested_refuted.
Print Assumptions C24_expansion.
Print Assumptions C24_reverse_expansion.
Print Assumptions C24_reverse_is_adjoint.
