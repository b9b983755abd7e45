(** C28: the solar cosine a handle computes with stays away from the nodes, and the single
    scattering albedo away from one. *)
From Coq Require Import ZArith NArith Reals Bool List Lia Lra SpecFloat.
From Verif Require Import Base OptionsModel OptionsSpec OptionsProofs OptionsProperties Dbl DblReal HandleModel HandleTable HandleWp HandleSetters HandleInv HandleSteps
  HandleGetters HandleSpec HandleFrame HandleGate HandleSolve HandleHist HandleCalls HandleHistory HandleGetSet HandleRange HandleProofs
  HandleReady HandleReady2 HandleProperties SingularityProofs SingularityHist.
From Coq Require Import Reals.
From Flocq Require Raux Defs.
Import ListNotations.
Open Scope Z_scope.

(** * Specification *)

(** Distance of two doubles. *)
Definition gap (a b : dbl) : R := Rabs (valR a - valR b).
(** The cosine requested and the one the solvers are given. *)
Definition requested (h : handle) (m : dbl) : Prop := h_mem h Mu00 = Some (VD m).
Definition in_use (h : handle) (v : dbl) : Prop := h_mem h Mu0 = Some (VD v).
(** Node [i] (quadrature nodes, then the cosines of the output angles once they are set) takes part. *)
Definition takes_part (h : handle) (i : Z) : Prop := 0 <= i < used h.
(** Collides for certain: by more than the rounding error of one operation. *)
Definition collides (q m : dbl) : Prop := (gap q m < tol - half_ulp)%R.

Definition kept_away (h : handle) (m v : dbl) : Prop :=
  ((forall i, takes_part h i -> (tol <= gap (node h i) m)%R) -> v = m) /\
  (forall i, takes_part h i -> collides (node h i) m ->
     (Rabs (gap (node h i) v - tol) <= half_ulp)%R /\ (forall j, takes_part h j -> collides (node h j) m -> j = i)) /\
  (gap v m <= tol + half_ulp)%R /\
  ((forall i j, takes_part h i -> takes_part h j -> i <> j -> (2 * tol <= gap (node h i) (node h j))%R) ->
   forall i, takes_part h i -> (tol - half_ulp <= gap (node h i) v)%R).

(** * Proofs *)

Lemma in_node_list h q : In q (node_list h) <-> exists i, takes_part h i /\ node h i = q.
Proof.
  unfold node_list. rewrite in_map_iff. split.
  - intros (i & E & Hi). apply in_zseq in Hi. eauto.
  - intros (i & Hi & E). exists i. split; auto. now apply in_zseq.
Qed.

Lemma split_map {A B} (f : A -> B) : forall l a b c, map f l = a ++ b :: c ->
  exists l1 x l2, l = l1 ++ x :: l2 /\ map f l1 = a /\ f x = b /\ map f l2 = c.
Proof.
  induction l as [|y l IH]; intros a b c H; [now destruct a|]. destruct a as [|z a]; cbn in H; injection H as H1 H2.
  - exists [], y, l. auto.
  - destruct (IH _ _ _ H2) as (l1 & x & l2 & -> & <- & <- & <-). exists (y :: l1), x, l2. subst z. auto.
Qed.

(** A loop result, per node index. *)
Lemma pa_nodes h m n v : pa (node_list h) m 0 m = Some (n, v) ->
  (v = m /\ forall i, takes_part h i -> hit (node h i) m = false) \/
  (exists i, takes_part h i /\ hit (node h i) m = true /\ v = moved (node h i) m /\
     forall j, takes_part h j -> j <> i -> hit (node h j) m = false).
Proof.
  intro P. destruct (pa_spec _ _ _ _ _ P) as [(_ & -> & A)|(_ & l & q & r & E & H & -> & A)].
  - left. split; auto. intros i Hi. apply A. apply in_node_list. eauto.
  - right. unfold node_list in E. destruct (split_map _ _ _ _ _ E) as (l1 & x & l2 & EL & <- & <- & <-).
    assert (ND : NoDup (l1 ++ x :: l2)) by (rewrite <- EL; apply zseq_nodup).
    assert (Hx : takes_part h x) by (apply in_zseq; rewrite EL; apply in_elt).
    exists x. split; [exact Hx|]. split; [exact H|]. split; [reflexivity|]. intros j Hj N. apply A.
    apply in_zseq in Hj. rewrite EL in Hj. rewrite <- map_app. apply in_map. apply in_elt_inv in Hj as [->|Hj]; [easy|exact Hj].
Qed.

Lemma tuned_kept h m v : tuned h -> requested h m -> in_use h v -> cos_ok m ->
  (forall i, takes_part h i -> node_ok (node h i)) -> kept_away h m v.
Proof.
  intros (m' & v' & n & A & B & P) Em Ev M Q. unfold requested, in_use in *. rewrite A in Em. rewrite B in Ev.
  injection Em as ->. injection Ev as ->. pose proof half_ulp_range as U. pose proof tol_range as T.
  destruct (pa_nodes _ _ _ _ P) as [(-> & N)|(i & Hi & H & -> & N)].
  - split; [auto|]. split; [|split].
    + intros i Hi C. pose proof (close_hit _ _ (Q i Hi) M C) as X. now rewrite N in X by auto.
    + unfold gap. rewrite Rminus_diag_eq, Rabs_R0 by reflexivity. lra.
    + intros _ i Hi. apply no_hit_distance; auto.
  - destruct (hit_distance (node h i) m (Q i Hi) M H) as (D1 & D2 & D3).
    assert (D2' : (Rabs (gap (node h i) (moved (node h i) m) - tol) <= half_ulp)%R).
    { unfold gap. now rewrite (Rabs_minus_sym (valR (node h i))). }
    split; [|split; [|split]].
    + intro F. specialize (F i Hi). unfold gap in F. lra.
    + intros j Hj C. assert (j = i) as ->.
      { destruct (Z.eq_dec j i) as [|NE]; auto. pose proof (close_hit _ _ (Q j Hj) M C). now rewrite N in * by auto. }
      split; [exact D2'|]. intros k Hk C'. destruct (Z.eq_dec k i) as [|NE]; auto.
      pose proof (close_hit _ _ (Q k Hk) M C'). now rewrite N in * by auto.
    + exact D3.
    + intros S j Hj. destruct (Z.eq_dec j i) as [->|NE].
      * revert D2'. intro W. apply Raux.Rabs_le_inv in W. lra.
      * specialize (S i j Hi Hj ltac:(auto)). apply Raux.Rabs_le_inv in D2'. unfold gap in *.
        assert (TR : (Rabs (valR (node h i) - valR (node h j)) <=
                  Rabs (valR (node h i) - valR (moved (node h i) m)) + Rabs (valR (node h j) - valR (moved (node h i) m)))%R).
        { rewrite (Rabs_minus_sym (valR (node h j))).
          replace (valR (node h i) - valR (node h j))%R with
            ((valR (node h i) - valR (moved (node h i) m)) + (valR (moved (node h i) m) - valR (node h j)))%R by ring.
          apply Rabs_triang. }
        lra.
Qed.

Section Facts.
Variables cosd acosd : dbl -> dbl.
Notation inv := (inv cosd).
Notation exec := (exec cosd acosd).
Notation reach := (reach cosd acosd).

Lemma no_angle_yet nodes a h0 : create nodes a = Ok h0 -> ~ isset h0 FlMu0.
Proof.
  unfold create. destruct (create_config a) as [c| |]; try discriminate. intro H. injection H as <-. unfold isset. cbn. discriminate.
Qed.

Lemma reach_tuned nodes a t h : reach nodes a t h -> angles_taken t -> isset h FlMu0 -> tuned h.
Proof.
  intros R A F. destruct (reach_facts cosd acosd _ _ _ _ R) as (h0 & C & H & I0 & I & _).
  apply (hist_tuned cosd acosd h0 t h); auto. eapply no_angle_yet; eauto.
Qed.

Lemma conflict h i j m : takes_part h i -> takes_part h j -> i <> j -> cos_ok m -> 
  (forall k, takes_part h k -> node_ok (node h k)) -> collides (node h i) m -> collides (node h j) m ->
  h_mem h Mu00 = Some (VD m) -> tuned h -> False.
Proof.
  intros Hi Hj N M Q Ci Cj E (m' & v & n & A & B & P). rewrite A in E. injection E as ->.
  destruct (pa_nodes _ _ _ _ P) as [(_ & F)|(k & Hk & _ & _ & F)].
  - pose proof (close_hit _ _ (Q i Hi) M Ci) as H. now rewrite F in H by auto.
  - destruct (Z.eq_dec i k) as [->|NE].
    + pose proof (close_hit _ _ (Q j Hj) M Cj) as H. now rewrite F in H by auto.
    + pose proof (close_hit _ _ (Q i Hi) M Ci) as H. now rewrite F in H by auto.
Qed.

Lemma theta_0_conflict nodes a t h x i j : reach nodes a t h -> cos_ok (cosd x) ->
  takes_part h i -> takes_part h j -> i <> j -> (forall k, takes_part h k -> node_ok (node h k)) ->
  collides (node h i) (cosd x) -> collides (node h j) (cosd x) -> exists e h', exec (SetTheta0 x) h = Fail e h'.
Proof.
  intros R M Hi Hj N Q Ci Cj. destruct (reach_facts cosd acosd _ _ _ _ R) as (h0 & C & H & I0 & I & _).
  pose proof (theta_0_tuned cosd acosd h x I) as W. unfold wp in W. pose proof (only_exec cosd acosd (SetTheta0 x) h) as O.
  destruct (exec (SetTheta0 x) h) as [r h'|e h'|] eqn:E; [|eauto|easy]. exfalso. destruct W as (T & EM).
  assert (EC : h_cfg h' = h_cfg h) by (apply (setter_cfg cosd acosd h (SetTheta0 x) r h'); auto; reflexivity).
  assert (EN : forall k, node h' k = node h k) by (intro k; unfold node; now rewrite O by reflexivity).
  assert (EU : used h' = used h) by (unfold used; now rewrite O, EC by reflexivity).
  apply (conflict h' i j (cosd x)); auto; unfold takes_part in *; rewrite ?EU, ?EN; auto.
  intros k Hk. rewrite EN. auto.
Qed.

Lemma out_conflict nodes a t h x i j m : reach nodes a t h -> sized h (SetOutThetas x) -> isset h FlMu0 -> requested h m -> cos_ok m ->
  let q k := if k <? c_n_quad (h_cfg h) then node h k else cosd (xd x (k - c_n_quad (h_cfg h))) in
  let n := c_n_quad (h_cfg h) + c_n_umus (h_cfg h) in
  0 <= i < n -> 0 <= j < n -> i <> j -> (forall k, 0 <= k < n -> node_ok (q k)) ->
  collides (q i) m -> collides (q j) m -> exists e h', exec (SetOutThetas x) h = Fail e h'.
Proof.
  intros R SZ F EM M q n Hi Hj N Q Ci Cj. destruct (reach_facts cosd acosd _ _ _ _ R) as (h0 & C & H & I0 & I & _).
  pose proof (out_thetas_tuned cosd acosd h x I SZ F) as W. unfold wp in W. pose proof (only_exec cosd acosd (SetOutThetas x) h) as O.
  destruct (exec (SetOutThetas x) h) as [r h'|e h'|] eqn:E; [|eauto|easy]. exfalso. destruct W as (T & EU & E1 & E2).
  assert (EQ : forall k, 0 <= k < n -> node h' k = q k).
  { intros k Hk. unfold q. destruct (Z.ltb_spec k (c_n_quad (h_cfg h))); [now apply E2|].
    rewrite <- E1 by (unfold n in Hk; lia). f_equal. lia. }
  fold n in EU.
  apply (conflict h' i j m); auto; unfold takes_part; rewrite ?EU, ?EQ; auto.
  - intros k Hk. rewrite EQ by auto. auto.
  - unfold requested in EM. rewrite <- EM. now apply O.
Qed.
End Facts.

(** The albedo: kept when it is the threshold below one, else put that far below. *)
Lemma away_spec x : valid x -> finite x -> (0 <= valR x <= 1)%R ->
  ((valR x <= 1 - tol)%R -> away_from_one x = x) /\
  ((1 - tol < valR x)%R -> (Rabs (valR (away_from_one x) - (1 - tol)) <= half_ulp)%R).
Proof.
  intros V F P. pose proof tol_range as T. pose proof half_ulp_range as U.
  destruct eps_facts as (E1 & E2 & _).
  assert (V1 : valid d_one) by reflexivity. assert (F1 : finite d_one) by exact Logic.I.
  pose proof one_val as O1.
  unfold away_from_one.
  assert (B : (Rabs (valR d_one - valR x) < 2)%R) by (rewrite O1; apply Rabs_def1; lra).
  destruct (dsub_val d_one x V1 V F1 F B) as (Vs & Fs & Es).
  split; intro H.
  - assert (L : dlt (dsub d_one x) d_1em5 = false).
    { apply not_true_is_false. intro C. apply dlt_R in C; auto. rewrite Es in C. fold tol in C.
      assert (G : (tol <= valR (dsub d_one x))%R).
      { rewrite Es. unfold tol at 1. rewrite <- (rnd_valR d_1em5) at 1 by exact E1. apply rnd_le. rewrite O1. fold tol. lra. }
      rewrite Es in G. lra. }
    now rewrite L.
  - assert (E : valR (dsub d_one x) = (1 - valR x)%R).
    { assert (Q : node_ok d_one) by (split; [exact V1|split; [exact F1|lra]]).
      assert (M : cos_ok x) by (split; [exact V|split; [exact F|lra]]).
      rewrite <- O1. apply near_exact; auto. rewrite O1. apply Rabs_def1; lra. }
    assert (L : dlt (dsub d_one x) d_1em5 = true) by (apply dlt_R; auto; rewrite E; fold tol; lra).
    rewrite L. assert (B2 : (Rabs (valR d_one - valR d_1em5) < 2)%R) by (rewrite O1; fold tol; apply Rabs_def1; lra).
    destruct (dsub_val d_one d_1em5 V1 E1 F1 E2 B2) as (_ & _ & E'). rewrite E'. fold tol. rewrite O1.
    apply (rnd_error (1 - tol)). rewrite O1 in B2. exact B2.
Qed.

(* ------------------------------------------------------------------------- *)
(** * C28                                                                     *)

(** Once the solar angle is set, and as long as no call setting it or the output angles was refused:
    the cosine in use is the requested one if that is the threshold away from every node; else it is
    the threshold away from the node it collided with, and that is the only one; it is never moved
    by more than the threshold; and when the nodes are two thresholds apart it is the threshold
    away from all of them.  Up to the rounding error of one operation (2^-53). *)
Theorem C28_angle_kept_away : forall cosd acosd nodes a t h,
  reach cosd acosd nodes a t h -> angles_taken t -> isset h FlMu0 ->
  exists m v, requested h m /\ in_use h v /\
    (cos_ok m -> (forall i, takes_part h i -> node_ok (node h i)) -> kept_away h m v).
Proof.
  intros cosd acosd nodes a t h R A F. pose proof (reach_tuned cosd acosd nodes a t h R A F) as T.
  destruct T as (m & v & n & E1 & E2 & P). exists m, v. split; [exact E1|]. split; [exact E2|]. intros M Q.
  apply tuned_kept; auto. now exists m, v, n.
Qed.
Print Assumptions C28_angle_kept_away.

(** A solar angle that collides with two nodes is refused, whichever of the angles is set last. *)
Theorem C28_conflict_refused : forall cosd acosd nodes a t h x i j,
  reach cosd acosd nodes a t h -> cos_ok (cosd x) ->
  takes_part h i -> takes_part h j -> i <> j -> (forall k, takes_part h k -> node_ok (node h k)) ->
  collides (node h i) (cosd x) -> collides (node h j) (cosd x) ->
  exists e h', exec cosd acosd (SetTheta0 x) h = Fail e h'.
Proof. exact theta_0_conflict. Qed.
Print Assumptions C28_conflict_refused.

Theorem C28_conflict_with_output_refused : forall cosd acosd nodes a t h x i j m,
  reach cosd acosd nodes a t h -> sized h (SetOutThetas x) -> isset h FlMu0 -> requested h m -> cos_ok m ->
  let q k := if k <? c_n_quad (h_cfg h) then node h k else cosd (xd x (k - c_n_quad (h_cfg h))) in
  let n := c_n_quad (h_cfg h) + c_n_umus (h_cfg h) in
  0 <= i < n -> 0 <= j < n -> i <> j -> (forall k, 0 <= k < n -> node_ok (q k)) ->
  collides (q i) m -> collides (q j) m ->
  exists e h', exec cosd acosd (SetOutThetas x) h = Fail e h'.
Proof. exact out_conflict. Qed.
Print Assumptions C28_conflict_with_output_refused.

(** The single scattering albedo reported (and used) after setting it. *)
Theorem C28_albedo_below_one : forall cosd acosd nodes a t h i x v h',
  reach cosd acosd nodes a t h -> within i (c_n_layers (h_cfg h)) ->
  exec cosd acosd (SetOmega1 i x) h = Ret v h' -> valid x -> finite x -> (0 <= valR x <= 1)%R ->
  exists w, exec cosd acosd (GetOmega i) h' = Ret [VD w] h' /\
    ((valR x <= 1 - tol)%R -> w = x) /\ ((1 - tol < valR x)%R -> (Rabs (valR w - (1 - tol)) <= half_ulp)%R).
Proof.
  intros cosd acosd nodes a t h i x v h' R W E V F P. exists (away_from_one x). split; [|now apply away_spec].
  apply (C06_get_after_set cosd acosd nodes a t h (SetOmega1 i x) v h' (GetOmega i) [VD (away_from_one x)]); auto; try exact Logic.I.
  cbn. now rewrite Z.eqb_refl.
Qed.
Print Assumptions C28_albedo_below_one.

(* ------------------------------------------------------------------------- *)
(** * Concrete cases                                                          *)

Ltac reals := repeat match goal with
  | |- context [valR (S754_finite false ?m (Zneg ?p))] =>
      let z := eval vm_compute in (Z.pow_pos 2 p) in
      change (valR (S754_finite false m (Zneg p))) with (IZR (Zpos m) / IZR z)%R
  end.

(** A handle with two quadrature nodes (1/4 and 3/4) and one output angle. *)
Definition out_args : create_args :=
  {| a_options := ors [OPT_OUTPUT_AT_TAUS; OPT_CALC_DERIVS; OPT_SOURCE_SOLAR; OPT_SFI];
     a_solvers := ors [SOLVER_EIG_BVP];
     a_max_coef := 3; a_n_quad := 2; a_n_stokes := 1; a_n_derivs := 1; a_n_layers := 2;
     a_n_theta_0s := 1; a_n_kernels := 1; a_n_kernel_quad := 16; a_kernels := [0%Z];
     a_n_out_levels := 2; a_n_out_thetas := 1 |}.
Definition out_cfg : config := match create_config out_args with Ok c => c | _ => two_cfg end.
Definition out_handle : handle := handle0 tnodes out_cfg.
Lemma out_created : kernels_long_enough out_args /\ create tnodes out_args = Ok out_handle.
Proof. split; [vm_compute; discriminate|]. unfold create, out_handle, out_cfg. destruct (create_config out_args) eqn:E; [reflexivity| |]; vm_compute in E; discriminate E. Qed.
Lemma out_reach c ac os : playable c ac os out_handle -> reach c ac tnodes out_args (trace c ac os out_handle) (ends c ac os out_handle).
Proof. intro P. destruct out_created as [K C]. split; [exact K|]. exists out_handle. split; [exact C|now apply plays]. Qed.

(** 3/4, and 3/4 plus 0.2, 0.5 and 1.5 thresholds; 0.3 and 0.2 thresholds. *)
Definition q34 : dbl := S754_finite false 6755399441055744 (-53).
Definition q34_02 : dbl := S754_finite false 6755417455454253 (-53).
Definition q34_05 : dbl := S754_finite false 6755444477052018 (-53).
Definition q34_15 : dbl := S754_finite false 6755534549044565 (-53).
Definition low_03 : dbl := S754_finite false 7083549724304468 (-71).
Definition low_02 : dbl := S754_finite false 4722366482869645 (-71).
(** Cosines of two angles: of 60 (used for the sun) and of 2 (used for the output). *)
Definition cos2 (s o : dbl) (x : dbl) : dbl := if deq x d_60 then s else if deq x d_two then o else d_half.
Definition acos2 (s : dbl) (x : dbl) : dbl := if deq x s then d_60 else d_zero.

Lemma took ops : (forall x, ~ In (SetTheta0 x, false) ops) -> (forall x, ~ In (SetOutThetas x, false) ops) -> angles_taken ops.
Proof. now split. Qed.
Ltac taken := apply took; intros ? W; vm_compute in W; repeat destruct W as [W|W]; try discriminate W; try contradiction.

(** A collision with a quadrature node: the cosine is moved down by one threshold. *)
Definition col_ops : list op := [SetTheta0 d_60; SetOutThetas [d_two]].
Definition col_cos := cos2 q34 d_half.
Example C28_case : let h := ends col_cos (acos2 q34) col_ops out_handle in let t := trace col_cos (acos2 q34) col_ops out_handle in
  reach col_cos (acos2 q34) tnodes out_args t h /\ angles_taken t /\ isset h FlMu0 /\ used h = 3 /\
  requested h q34 /\ cos_ok q34 /\ (forall i, takes_part h i -> node_ok (node h i)) /\
  takes_part h 1 /\ collides (node h 1) q34 /\ in_use h (dsub q34 d_1em5) /\ dlt (dsub q34 d_1em5) q34 = true.
Proof.
  cbv zeta. set (h := ends col_cos (acos2 q34) col_ops out_handle).
  assert (EU : used h = 3) by (vm_compute; reflexivity).
  pose proof tol_range as T. pose proof half_ulp_range as U.
  refine (conj _ (conj _ (conj _ (conj EU (conj _ (conj _ (conj _ (conj _ (conj _ (conj _ _)))))))))).
  - apply out_reach. unfold col_ops. play.
  - taken.
  - vm_compute. reflexivity.
  - vm_compute. reflexivity.
  - split; [reflexivity|split; [exact Logic.I|]]. unfold q34. reals. lra.
  - intros i Hi. unfold takes_part in Hi. rewrite EU in Hi. assert (D : i = 0 \/ i = 1 \/ i = 2) by lia.
    destruct D as [ -> | [ -> | -> ] ].
    + assert (E : node h 0 = d_quarter) by (vm_compute; reflexivity). rewrite E.
      split; [reflexivity|split; [exact Logic.I|]]. unfold d_quarter. reals. lra.
    + assert (E : node h 1 = q34) by (vm_compute; reflexivity). rewrite E.
      split; [reflexivity|split; [exact Logic.I|]]. unfold q34. reals. lra.
    + assert (E : node h 2 = d_half) by (vm_compute; reflexivity). rewrite E.
      split; [reflexivity|split; [exact Logic.I|]]. unfold d_half. reals. lra.
  - unfold takes_part. rewrite EU. lia.
  - assert (E : node h 1 = q34) by (vm_compute; reflexivity). rewrite E. unfold collides, gap.
    rewrite Rminus_diag_eq, Rabs_R0 by reflexivity. lra.
  - vm_compute. reflexivity.
  - vm_compute. reflexivity.
Qed.

(** A conflict: sun at 0.2 thresholds above a quadrature node, output angle at 0.5 above it. *)
Definition cf_cos := cos2 q34_02 q34_05.
Example C28_conflict_case : let h := ends cf_cos (acos2 q34_02) [SetOutThetas [d_two]] out_handle in
  reach cf_cos (acos2 q34_02) tnodes out_args (trace cf_cos (acos2 q34_02) [SetOutThetas [d_two]] out_handle) h /\
  cos_ok (cf_cos d_60) /\ takes_part h 1 /\ takes_part h 2 /\ (forall k, takes_part h k -> node_ok (node h k)) /\
  collides (node h 1) (cf_cos d_60) /\ collides (node h 2) (cf_cos d_60) /\ 
  accepted cf_cos (acos2 q34_02) (SetTheta0 d_60) h = false /\ accepted cf_cos (acos2 q34_02) (SetTheta0 d_one) h = true.
Proof.
  cbv zeta. set (h := ends cf_cos (acos2 q34_02) [SetOutThetas [d_two]] out_handle).
  assert (EU : used h = 3) by (vm_compute; reflexivity).
  pose proof tol_range as T. pose proof half_ulp_range as U.
  assert (EC : cf_cos d_60 = q34_02) by (vm_compute; reflexivity). rewrite EC.
  assert (E0 : node h 0 = d_quarter) by (vm_compute; reflexivity).
  assert (E1 : node h 1 = q34) by (vm_compute; reflexivity).
  assert (E2 : node h 2 = q34_05) by (vm_compute; reflexivity).
  refine (conj _ (conj _ (conj _ (conj _ (conj _ (conj _ (conj _ (conj _ _)))))))).
  - apply out_reach. play.
  - split; [reflexivity|split; [exact Logic.I|]]. unfold q34_02. reals. lra.
  - unfold takes_part. rewrite EU. lia.
  - unfold takes_part. rewrite EU. lia.
  - intros i Hi. unfold takes_part in Hi. rewrite EU in Hi. assert (D : i = 0 \/ i = 1 \/ i = 2) by lia.
    destruct D as [ -> | [ -> | -> ] ]; rewrite ?E0, ?E1, ?E2; (split; [reflexivity|split; [exact Logic.I|]]).
    + unfold d_quarter. reals. lra.
    + unfold q34. reals. lra.
    + unfold q34_05. reals. lra.
  - rewrite E1. unfold collides, gap, q34, q34_02. reals. apply Rabs_def1; unfold half_ulp; lra.
  - rewrite E2. unfold collides, gap, q34_05, q34_02. reals. apply Rabs_def1; unfold half_ulp; lra.
  - vm_compute. reflexivity.
  - vm_compute. reflexivity.
Qed.

Example C28_albedo_case : exists v h', exec tcos tacos (SetOmega1 1 d_one) full_handle = Ret v h' /\
  within 1 (c_n_layers (h_cfg full_handle)) /\ valid d_one /\ finite d_one /\ (1 - tol < valR d_one <= 1)%R /\
  answer (GetOmega 1) h' = Some [VD (dsub d_one d_1em5)].
Proof.
  destruct (next_ok (SetOmega1 1 d_one) full_handle) as (v & E); [vm_compute; reflexivity|].
  exists v, (next tcos tacos (SetOmega1 1 d_one) full_handle). pose proof tol_range. 
  refine (conj E (conj _ (conj eq_refl (conj Logic.I (conj _ _))))).
  - unfold within. split; [discriminate|]. vm_compute. reflexivity.
  - rewrite one_val. lra.
  - vm_compute. reflexivity.
Qed.

(* ------------------------------------------------------------------------- *)
(** * What does not hold                                                      *)

(** Nodes closer than two thresholds: the accepted cosine may be put next to another node
    (here an output angle 1.5 thresholds above a quadrature node: half a threshold away). *)
Definition near_cos := cos2 q34_02 q34_15.
Theorem C28_other_node_refuted : exists cosd acosd nodes a t h m v i,
  reach cosd acosd nodes a t h /\ angles_taken t /\ isset h FlMu0 /\ requested h m /\ cos_ok m /\ in_use h v /\
  (forall i, takes_part h i -> node_ok (node h i)) /\ takes_part h i /\ (gap (node h i) v < 6 / 10 * tol)%R.
Proof.
  set (h := ends near_cos (acos2 q34_02) col_ops out_handle).
  exists near_cos, (acos2 q34_02), tnodes, out_args, (trace near_cos (acos2 q34_02) col_ops out_handle), h, q34_02,
    (S754_finite false 6755489513048291 (-53)), 2.
  assert (EU : used h = 3) by (vm_compute; reflexivity).
  pose proof tol_range as T.
  assert (E0 : node h 0 = d_quarter) by (vm_compute; reflexivity).
  assert (E1 : node h 1 = q34) by (vm_compute; reflexivity).
  assert (E2 : node h 2 = q34_15) by (vm_compute; reflexivity).
  refine (conj _ (conj _ (conj _ (conj _ (conj _ (conj _ (conj _ (conj _ _)))))))).
  - apply out_reach. unfold col_ops. play.
  - taken.
  - vm_compute. reflexivity.
  - vm_compute. reflexivity.
  - split; [reflexivity|split; [exact Logic.I|]]. unfold q34_02. reals. lra.
  - vm_compute. reflexivity.
  - intros i Hi. unfold takes_part in Hi. rewrite EU in Hi. assert (D : i = 0 \/ i = 1 \/ i = 2) by lia.
    destruct D as [ -> | [ -> | -> ] ]; rewrite ?E0, ?E1, ?E2; (split; [reflexivity|split; [exact Logic.I|]]).
    + unfold d_quarter. reals. lra.
    + unfold q34. reals. lra.
    + unfold q34_15. reals. lra.
  - unfold takes_part. rewrite EU. lia.
  - rewrite E2. unfold gap, q34_15. reals. apply Rabs_def1; lra.
Qed.
Print Assumptions C28_other_node_refuted.

(** Nodes below the threshold (output angles close to 90 degrees): the cosine is reflected at zero
    and may stay close to the node it collided with. *)
Definition low_cos := cos2 low_02 low_03.
Theorem C28_small_node_refuted : exists cosd acosd nodes a t h m v i,
  reach cosd acosd nodes a t h /\ angles_taken t /\ isset h FlMu0 /\ requested h m /\ cos_ok m /\ in_use h v /\
  takes_part h i /\ collides (node h i) m /\ (gap (node h i) v < 1 / 2 * tol)%R.
Proof.
  set (h := ends low_cos (acos2 low_02) col_ops out_handle).
  exists low_cos, (acos2 low_02), tnodes, out_args, (trace low_cos (acos2 low_02) col_ops out_handle), h, low_02,
    (dabs (dsub low_03 d_1em5)), 2.
  assert (EU : used h = 3) by (vm_compute; reflexivity).
  pose proof tol_range as T.
  assert (E2 : node h 2 = low_03) by (vm_compute; reflexivity).
  refine (conj _ (conj _ (conj _ (conj _ (conj _ (conj _ (conj _ (conj _ _)))))))).
  - apply out_reach. unfold col_ops. play.
  - taken.
  - vm_compute. reflexivity.
  - vm_compute. reflexivity.
  - split; [reflexivity|split; [exact Logic.I|]]. unfold low_02. reals. lra.
  - vm_compute. reflexivity.
  - unfold takes_part. rewrite EU. lia.
  - rewrite E2. unfold collides, gap, low_03, low_02. reals. apply Rabs_def1; unfold half_ulp; lra.
  - rewrite E2. let v := eval vm_compute in (dabs (dsub low_03 d_1em5)) in change (dabs (dsub low_03 d_1em5)) with v.
    unfold gap, low_03. reals. apply Rabs_def1; lra.
Qed.
Print Assumptions C28_small_node_refuted.

(** A refused call is not without effect: the handle reports the refused angle and computes with a
    cosine half a threshold from a node. *)
Definition ref_cos (x : dbl) : dbl := cf_cos x.
Definition ref_ops : list op := [SetTheta0 d_60; SetTheta0 d_one; SetOutThetas [d_two]].
Theorem C28_refused_changes_refuted : exists cosd acosd nodes a t h e h' x v i,
  reach cosd acosd nodes a t h /\ angles_taken t /\ isset h FlMu0 /\ (exists y, y <> x /\ exec cosd acosd GetTheta0 h = Ret [VD y] h) /\
  exec cosd acosd (SetTheta0 x) h = Fail e h' /\ isset h' FlMu0 /\ exec cosd acosd GetTheta0 h' = Ret [VD x] h' /\
  in_use h' v /\ takes_part h' i /\ node_ok (node h' i) /\ (gap (node h' i) v < 6 / 10 * tol)%R.
Proof.
  set (os := [SetTheta0 d_one; SetOutThetas [d_two]]).
  set (h := ends ref_cos (acos2 q34_02) os out_handle).
  set (h' := next ref_cos (acos2 q34_02) (SetTheta0 d_60) h).
  assert (EF : exists e, exec ref_cos (acos2 q34_02) (SetTheta0 d_60) h = Fail e h').
  { unfold h'. unfold next. destruct (exec ref_cos (acos2 q34_02) (SetTheta0 d_60) h) as [r g|e g|] eqn:E; eauto; exfalso.
    - assert (A : accepted ref_cos (acos2 q34_02) (SetTheta0 d_60) h = false) by (vm_compute; reflexivity). unfold accepted in A. now rewrite E in A.
    - assert (A : undefined ref_cos (acos2 q34_02) (SetTheta0 d_60) h = false) by (vm_compute; reflexivity). unfold undefined in A. now rewrite E in A. }
  destruct EF as (e & EF).
  assert (G : forall g y, match exec ref_cos (acos2 q34_02) GetTheta0 g with Ret [VD z] _ => z = y | _ => False end ->
     exec ref_cos (acos2 q34_02) GetTheta0 g = Ret [VD y] g).
  { intros g y W. destruct (exec ref_cos (acos2 q34_02) GetTheta0 g) as [r g'|?|] eqn:E; try contradiction.
    pose proof (getter_same ref_cos (acos2 q34_02) GetTheta0 g r g' eq_refl E) as ->.
    destruct r as [|[z|z] [|]]; try contradiction. now subst. }
  exists ref_cos, (acos2 q34_02), tnodes, out_args, (trace ref_cos (acos2 q34_02) os out_handle), h, e, h', d_60,
    (dsub q34_05 d_1em5), 1.
  pose proof tol_range as T.
  assert (EU : used h' = 3) by (vm_compute; reflexivity).
  assert (E1 : node h' 1 = q34) by (vm_compute; reflexivity).
  refine (conj _ (conj _ (conj _ (conj _ (conj EF (conj _ (conj _ (conj _ (conj _ (conj _ _)))))))))).
  - apply out_reach. unfold os. play.
  - taken.
  - vm_compute. reflexivity.
  - exists d_zero. split; [discriminate|]. apply G. vm_compute. reflexivity.
  - vm_compute. reflexivity.
  - apply G. vm_compute. reflexivity.
  - vm_compute. reflexivity.
  - unfold takes_part. rewrite EU. lia.
  - rewrite E1. split; [reflexivity|split; [exact Logic.I|]]. unfold q34. reals. lra.
  - rewrite E1. let v := eval vm_compute in (dsub q34_05 d_1em5) in change (dsub q34_05 d_1em5) with v.
    unfold gap, q34. reals. apply Rabs_def1; lra.
Qed.
Print Assumptions C28_refused_changes_refuted.
