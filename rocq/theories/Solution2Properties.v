(** Properties C26 and C27: xrtm_solution_2. *)
From Coq Require Import List Bool Arith NArith ZArith Reals Lia.
From Verif Require Import Base OptionsModel OptionsSpec OptionsProofs Dbl DerivsModel HandleModel HandleInv HandleSpec HandleHist HandleCalls HandleHistory
  HandleProofs HandleProperties Solution2Model Solution2Spec Solution2Proofs.
Import ListNotations.
Open Scope nat_scope.

(* ------------------------------------------------------------------------- *)
(** * C26                                                                     *)

(** Every pass of the loop is about a requested output, and every requested output has exactly
    one pass. *)
Theorem C26_each_output_visited_once : forall g,
  (forall i, i < n_inputs g -> exists o, decode g i = Some o /\ requested g o) /\
  (forall o, requested g o -> exists! i, i < n_inputs g /\ decode g i = Some o).
Proof.
  intro g. split.
  - intros i L. destruct (decode_some g i L) as (o & D & Q & _). eauto.
  - intros o Q. destruct (decode_all g o Q) as [L D]. exists (block g (fst o) + encode4 g (snd o)). split; [auto|].
    intros j [Lj Dj]. destruct (decode_some g j Lj) as (o' & D' & _ & E). rewrite Dj in D'. injection D' as <-. auto.
Qed.
Print Assumptions C26_each_output_visited_once.

(** A created handle always has an output direction, so the loop bounds are set. *)
Theorem C26_direction_selected : forall a c, kernels_long_enough a -> create_config a = Ok c ->
  forall g, s_up g = tst (c_options c) OPT_UPWELLING_OUTPUT -> s_down g = tst (c_options c) OPT_DOWNWELLING_OUTPUT -> directions g <> [].
Proof.
  intros a c K E g U D. destruct (create_stored_valid a c K E) as [V _]. unfold directions. rewrite U, D.
  destruct (tst (c_options c) OPT_UPWELLING_OUTPUT) eqn:U', (tst (c_options c) OPT_DOWNWELLING_OUTPUT) eqn:D'; cbn; try discriminate.
  exfalso. pose proof (tst_lor (c_options c) OPT_UPWELLING_OUTPUT OPT_DOWNWELLING_OUTPUT) as B. rewrite U', D' in B.
  unfold check_options in V. rewrite B in V. cbn [orb negb] in V.
  repeat match type of V with (if ?b then _ else _) = _ => destruct b; try discriminate V end.
Qed.
Print Assumptions C26_direction_selected.

(** With reverse passes that succeed, the derivatives returned are the chain rule applied to the
    gradient of each single output; outputs that were not requested have zero derivatives. *)
Theorem C26_derivatives_of_each_output : forall g ln reverse x0 a0,
  directions g <> [] -> reads_arrays g reverse -> (forall o, requested g o -> reverse (unit_seed 0%R 1%R o) <> None) ->
  exists s a, reverse_loop R 0%R 1%R Rplus Rmult g ln reverse x0 a0 = Some (s, a) /\
    (forall o k x, requested g o -> k < s_derivs g -> reverse (unit_seed 0%R 1%R o) = Some x -> a o k = chain_rule g ln x k) /\
    (forall o k, in4 g (snd o) -> ~ requested g o -> k < s_derivs g -> a o k = 0%R) /\
    (forall o k, ~ in4 g (snd o) \/ s_derivs g <= k -> a o k = a0 o k).
Proof.
  intros g ln reverse x0 a0 D RA OK.
  destruct (loop_inv R 0%R 1%R Rplus Rmult g ln reverse RA x0 a0 OK (n_inputs g) (le_n _)) as (s & a & E & _ & A).
  exists s, a. split; [unfold reverse_loop; destruct (directions g); [congruence|exact E]|].
  assert (NR : forall o, ~ requested g o -> match decode g (block g (fst o) + encode4 g (snd o)) with Some q => out_eqb o q | None => false end &&
     (block g (fst o) + encode4 g (snd o) <? n_inputs g) = false).
  { intros o NQ. destruct (Nat.ltb_spec (block g (fst o) + encode4 g (snd o)) (n_inputs g)); [|apply andb_false_r].
    destruct (decode_some g _ H) as (q & Dq & Q & _). rewrite Dq, andb_true_r. destruct (out_eqb o q) eqn:X; [|reflexivity].
    apply out_eqb_spec in X. now subst. }
  split; [|split].
  - intros o k x Q L R. rewrite A. destruct (decode_all g o Q) as [Lo Do]. rewrite Do, (proj2 (out_eqb_spec o o) eq_refl).
    destruct (Nat.ltb_spec (block g (fst o) + encode4 g (snd o)) (n_inputs g)); [|lia]. destruct (Nat.ltb_spec k (s_derivs g)); [|lia].
    cbn [andb]. unfold grad. rewrite R. apply contract_chain.
  - intros o k I NQ L. rewrite A, NR by exact NQ. cbn [andb]. rewrite (proj2 (inside_in4 g o) I). destruct (Nat.ltb_spec k (s_derivs g)); [reflexivity|lia].
  - intros o k [NI|L]; rewrite A.
    + rewrite NR by (intros [_ Q]; auto). cbn [andb]. destruct (inside g o) eqn:X; [now apply inside_in4 in X|reflexivity].
    + destruct (Nat.ltb_spec k (s_derivs g)); [lia|]. rewrite !andb_false_r. reflexivity.
Qed.
Print Assumptions C26_derivatives_of_each_output.

(** A reverse pass that fails is not reported, and it spoils the derivatives of the outputs
    visited after it. *)
Definition g2 : s2cfg := {| s_levels := 2; s_mus := 1; s_phis := 1; s_stokes := 1; s_up := true; s_down := false;
  s_derivs := 1; s_kernels := 0; s_layers := 1; s_elem := 1; s_ncoef := fun _ => 1 |}.
Definition ln2 : lin Z := {| l_kamp := fun _ _ => 0%Z; l_ltau := fun _ _ => 1%Z; l_omega := fun _ _ => 0%Z;
  l_coef := fun _ _ _ _ => 0%Z; l_varies := fun _ _ => true |}.
Definition lev (i : nat) : out := (false, (i, 0, 0, 0)).
(** the gradient of 3 * upper level + 5 * lower level in the optical thickness *)
Definition adj0 : adj Z := {| a_kamp := fun _ => 0%Z; a_ltau := fun _ => 0%Z; a_omega := fun _ => 0%Z; a_coef := fun _ _ _ => 0%Z |}.
Definition rev2 (fails : bool) (s : seeds Z) : option (adj Z) :=
  if fails && (s (lev 1) =? 0)%Z then None
  else Some {| a_kamp := fun _ => 0%Z; a_ltau := fun _ => (3 * s (lev 0) + 5 * s (lev 1))%Z; a_omega := fun _ => 0%Z; a_coef := fun _ _ _ => 0%Z |}.
Definition run2 (fails : bool) := option_map (fun st => (snd st (lev 0) 0, snd st (lev 1) 0))
  (reverse_loop Z 0%Z 1%Z Z.add Z.mul g2 ln2 (rev2 fails) adj0 (fun _ _ => 9%Z)).
Theorem C26_failed_pass_spoils_later_outputs_refuted :
  (forall f, reads_arrays g2 (rev2 f)) /\ rev2 true (unit_seed 0%Z 1%Z (lev 1)) <> None /\
  run2 false = Some (3%Z, 5%Z) /\ run2 true = Some (0%Z, 8%Z).
Proof.
  split; [|split; [discriminate|split; reflexivity]]. intros f s s' E. unfold rev2. rewrite !E by (cbn; lia). reflexivity.
Qed.
Print Assumptions C26_failed_pass_spoils_later_outputs_refuted.

Definition g_big : s2cfg := {| s_levels := 3; s_mus := 4; s_phis := 2; s_stokes := 4; s_up := true; s_down := true;
  s_derivs := 2; s_kernels := 1; s_layers := 5; s_elem := 6; s_ncoef := fun j => j |}.
Example C26_case_decode : n_inputs g_big = 192 /\ decode g_big 0 = Some (false, (0, 0, 0, 0)) /\
  decode g_big 95 = Some (false, (2, 3, 1, 3)) /\ decode g_big 96 = Some (true, (0, 0, 0, 0)) /\ decode g_big 139 = Some (true, (1, 1, 0, 3)).
Proof. repeat split; reflexivity. Qed.
Example C26_case_down_only : decode {| s_levels := 3; s_mus := 4; s_phis := 2; s_stokes := 4; s_up := false; s_down := true;
  s_derivs := 2; s_kernels := 1; s_layers := 5; s_elem := 6; s_ncoef := fun j => j |} 43 = Some (true, (1, 1, 0, 3)).
Proof. reflexivity. Qed.
(** hypotheses of C26_derivatives_of_each_output *)
Definition rev_lin (s : seeds R) : option (adj R) :=
  Some {| a_kamp := fun _ => s (true, (0, 0, 0, 0)); a_ltau := fun j => Rmult (INR j) (s (false, (1, 1, 0, 3))); a_omega := fun _ => 0%R; a_coef := fun _ _ _ => 0%R |}.
Example C26_case_hypotheses : directions g_big <> [] /\ reads_arrays g_big rev_lin /\
  (forall o, requested g_big o -> rev_lin (unit_seed 0%R 1%R o) <> None) /\ requested g_big (false, (1, 1, 0, 3)) /\ ~ requested g2 (true, (1, 0, 0, 0)).
Proof.
  split; [discriminate|]. split; [|split; [discriminate|split; [split; [reflexivity|cbn; lia]|intros [Q _]; discriminate Q]]].
  intros s s' E. unfold rev_lin. rewrite !E by (cbn; lia). reflexivity.
Qed.
Example C26_case_created : exists c, create_config rev_args = Ok c /\ tst (c_options c) OPT_UPWELLING_OUTPUT = true.
Proof. destruct (create_config rev_args) as [c| |] eqn:E; [exists c; split; auto|..]; vm_compute in E; try discriminate E. injection E as <-. reflexivity. Qed.

(* ------------------------------------------------------------------------- *)
(** * C27                                                                     *)

(** Success leaves the options, the derivative count and every other answer as they were. *)
Theorem C27_success_restores : forall cosd acosd nodes a t h fx v h',
  reach cosd acosd nodes a t h -> exec cosd acosd (Solution2 fx) h = Ret v h' ->
  h_cfg h' = h_cfg h /\ (forall g r, kind_of g = Getter -> g <> GetQx -> exec cosd acosd g h = Ret r h -> exec cosd acosd g h' = Ret r h').
Proof.
  intros cosd acosd nodes a t h fx v h' R E. destruct (reach_facts _ _ _ _ _ _ R) as (h0 & _ & _ & _ & I & _).
  assert (C : h_cfg h' = h_cfg h) by (apply (step_cfg cosd acosd h (Solution2 fx) true h' I); [now exists v|reflexivity]).
  split; [exact C|]. intros g r G NQ EG. apply (frame cosd acosd nodes a t h [(Solution2 fx, true)] h' g r R); auto.
  - econstructor; [constructor| |]; [exact Logic.I|now exists v].
  - intros fx' [Q|[]]. discriminate Q.
  - intros x o' ok' _ [Q|[]]. injection Q as <- <-. reflexivity.
Qed.
Print Assumptions C27_success_restores.

(** Without the derivative option no call that takes derivatives is accepted. *)
Definition pres {A} (m : M A) : Prop := forall h a h1, m h = Ret a h1 -> h1 = h.
Definition blk {A} (m : M A) : Prop := forall h, has_opt (h_cfg h) OPT_CALC_DERIVS = false -> forall v h', m h <> Ret v h'.
Lemma blk_bind {A B} (m : M A) (k : A -> M B) : pres m -> (forall a, blk (k a)) -> blk (bind m k).
Proof. intros P K h C v h'. unfold bind. destruct (m h) eqn:E; try discriminate. rewrite (P _ _ _ E). now apply K. Qed.
Lemma blk_head {A B} (m : M A) (k : A -> M B) : blk m -> blk (bind m k).
Proof. intros P h C v h'. unfold bind. destruct (m h) eqn:E; try discriminate. exfalso. exact (P h C _ _ E). Qed.
Lemma pres_reject b e : pres (reject_if b e). Proof. intros h a h1. unfold reject_if. destruct b; [discriminate|]. now intros [= _ <-]. Qed.
Lemma pres_cfg : pres cfg. Proof. intros h a h1. now intros [= _ <-]. Qed.
Lemma pres_bind {A B} (m : M A) (k : A -> M B) : pres m -> (forall a, pres (k a)) -> pres (bind m k).
Proof. intros P K h a h1. unfold bind. destruct (m h) eqn:E; try discriminate. rewrite (P _ _ _ E). apply K. Qed.
Lemma pres_opt m e : pres (need_opt m e). Proof. apply pres_bind; [apply pres_cfg|intro; apply pres_reject]. Qed.
Lemma pres_range x n e : pres (CHECK_INDEX_RANGE x n e). Proof. apply pres_reject. Qed.
Lemma pres_kern e : pres (CHECK_N_KERNELS_NOT_ZERO e). Proof. apply pres_bind; [apply pres_cfg|intro; apply pres_reject]. Qed.
Lemma pres_kat i : pres (kernel_at i).
Proof. apply pres_bind; [apply pres_cfg|]. intros c h a h1. unfold ua. destruct (i <? 0)%Z; [discriminate|]. destruct (nth_error _ _); [|discriminate]. now intros [= _ <-]. Qed.
Lemma blk_init : blk CHECK_INIT_FOR_DERIVS.
Proof. intros h C v h'. unfold CHECK_INIT_FOR_DERIVS, bind, cfg, reject_if. rewrite C. discriminate. Qed.
Lemma blk_opt e : blk (need_opt OPT_CALC_DERIVS e).
Proof. intros h C v h'. unfold need_opt, bind, cfg, reject_if. rewrite C. discriminate. Qed.
Lemma blk_wrap {A} (m : M A) : blk m -> blk (wrap m).
Proof. intros P h C v h'. unfold wrap. destruct (m h) eqn:E; try discriminate. exfalso. exact (P h C _ _ E). Qed.
Lemma needs_calc cosd acosd o : takes_derivatives o = true -> blk (exec cosd acosd o).
Proof.
  intros T. destruct o; try discriminate T; cbn [exec]; unfold done; apply blk_head; try (intros h C v h'; unfold solution_2, bind, cfg, reject_if; rewrite C; discriminate).
  all: match goal with |- blk ?m => let k := match m with ?f _ _ _ _ _ => f | ?f _ _ _ _ => f | ?f _ _ _ => f | ?f _ _ => f | ?f _ => f | ?f => f end in unfold k end.
  all: repeat first [ match goal with |- blk (wrap _) => apply blk_wrap end | progress unfold set_g_x_l, set_coef_x_l, set_x_l | apply blk_head; apply blk_init | apply blk_head; apply blk_opt | apply blk_bind; [first [apply pres_opt | apply pres_cfg | apply pres_range | apply pres_kern | apply pres_kat]|intro] ].
  apply (blk_wrap set_g_x_l). unfold set_g_x_l. apply blk_head, blk_init.
Qed.

Lemma off_cfg cosd acosd h t h' : inv cosd h -> has_opt (h_cfg h) OPT_CALC_DERIVS = false -> hist cosd acosd h t h' -> h_cfg h' = h_cfg h.
Proof.
  intros I C H. induction H as [|t1 h2 o ok h3 H IH SZ ST]; [reflexivity|]. pose proof (hist_inv cosd acosd _ _ _ I H) as I2.
  rewrite <- IH in C |- *. destruct (broke o ok) eqn:B; [|now apply (step_cfg cosd acosd h2 o ok h3 I2 ST)].
  destruct o; try discriminate B. destruct ok; [discriminate B|]. destruct ST as (e & E).
  destruct (solve2_part cosd acosd h2 fx I2) as [E0|[E0|(h4 & _ & C' & _)]]; [congruence|congruence|congruence].
Qed.

(** A failing call may take the derivative option and the derivative count away; no later call
    brings them back, and from then on every call about derivatives is refused. *)
Definition derivatives_gone cosd acosd (h : handle) : Prop :=
  c_n_derivs (h_cfg h) = 0%Z /\ has_opt (h_cfg h) OPT_CALC_DERIVS = false /\
  exec cosd acosd GetNDerivs h = Ret [VZ 0] h /\
  forall o v h', takes_derivatives o = true -> exec cosd acosd o h <> Ret v h'.
Theorem C27_failure_drops_derivatives : forall cosd acosd nodes a t h fx e h',
  reach cosd acosd nodes a t h -> exec cosd acosd (Solution2 fx) h = Fail e h' ->
  h' = h \/
  (forall m, N.land m OPT_CALC_DERIVS = 0%N -> has_opt (h_cfg h') m = has_opt (h_cfg h) m) /\
  has_opt (h_cfg h) OPT_CALC_DERIVS = true /\
  forall t' h2, hist cosd acosd h' t' h2 -> derivatives_gone cosd acosd h2.
Proof.
  intros cosd acosd nodes a t h fx e h' R E. destruct (reach_facts _ _ _ _ _ _ R) as (h0 & _ & _ & _ & I & _).
  destruct (solve2_part cosd acosd h fx I) as [E0|[E0|(h2 & SR2 & C & [[E0 _]|[E0 I2]])]]; rewrite E in E0; try discriminate E0; injection E0 as -> ->; [now left|right].
  assert (OFF : forall m, N.land m OPT_CALC_DERIVS = 0%N -> has_opt (off (h_cfg h)) m = has_opt (h_cfg h) m).
  { intros m Hm. unfold has_opt, off, tst, with_derivs. cbn [c_options]. f_equal. f_equal. apply N.bits_inj. intro k.
    rewrite !N.land_spec, N.lxor_spec. apply (f_equal (fun x => N.testbit x k)) in Hm. rewrite N.land_spec, N.bits_0 in Hm.
    destruct (N.testbit m k); [|now rewrite !andb_false_r]. cbn in Hm. rewrite Hm, xorb_false_r. reflexivity. }
  assert (CO : has_opt (off (h_cfg h)) OPT_CALC_DERIVS = false).
  { unfold has_opt, off, tst, with_derivs in *. cbn [c_options]. unfold OPT_CALC_DERIVS in *.
    change (tst (N.lxor (c_options (h_cfg h)) (bit 0)) (bit 0) = false). change (tst (c_options (h_cfg h)) (bit 0) = true) in C.
    rewrite tst_bit in *. rewrite N.lxor_spec, C. reflexivity. }
  split; [exact OFF|]. split; [exact C|]. intros t' h3 H. pose proof (off_cfg cosd acosd _ _ _ I2 CO H) as Q. cbn [setc h_cfg] in Q.
  unfold derivatives_gone. rewrite Q. split; [reflexivity|]. split; [exact CO|]. split; [|intros o v h4 T; apply needs_calc; [exact T|now rewrite Q]].
  cbn [exec]. unfold getc, bind, cfg, ret. rewrite Q. reflexivity.
Qed.
Print Assumptions C27_failure_drops_derivatives.

(** Such a failure exists: a fully specified handle accepts a derivative, one failing reverse-mode
    call is made, and the same derivative is then refused. *)
Definition rev_ops : list op := rev
  [SetFourierTol d_zero; SetOutLevels [0; 1]%Z; SetFIsoTop d_zero; SetFIsoBot d_zero; SetF0 d_one; SetTheta0 d_60; SetPhi0 d_zero;
   SetCoefn None [phase]; SetOmegan [d_half]; SetLtau1 0 d_half; SetLtauL11 0 0 d_one; UpdateVaried].
Definition fx_bad : solve_fx := {| fx_ok := false; fx_dep := fun _ => 0%N; fx_lev := fun _ => 0%Z |}.
Definition rev_ready : handle := ends tcos tacos rev_ops rev_handle.
Definition rev_broken : handle := next tcos tacos (Solution2 fx_bad) rev_ready.
Lemma rev_ready_reach : reach tcos tacos tnodes rev_args (trace tcos tacos rev_ops rev_handle) rev_ready.
Proof.
  destruct C11_solution_2_ungated_refuted as [(K & h0 & C & H) _]. split; [exact K|]. exists h0. split; [exact C|].
  assert (h0 = rev_handle) as -> by (unfold rev_handle; now rewrite C). apply plays. unfold rev_ops. play.
Qed.
Theorem C27_failure_restores_refuted : exists nodes a t h fx e h',
  reach tcos tacos nodes a t h /\ exec tcos tacos (Solution2 fx) h = Fail e h' /\ 
  exec tcos tacos GetNDerivs h = Ret [VZ 1] h /\ exec tcos tacos GetNDerivs h' = Ret [VZ 0] h' /\
  accepted tcos tacos (SetLtauL11 0 0 d_one) h = true /\ accepted tcos tacos (SetLtauL11 0 0 d_one) h' = false.
Proof.
  assert (B : match exec tcos tacos (Solution2 fx_bad) rev_ready with Fail _ _ => true | _ => false end = true) by (vm_compute; reflexivity).
  assert (G : match exec tcos tacos GetNDerivs rev_ready with Ret [VZ 1] _ => true | _ => false end = true) by (vm_compute; reflexivity).
  assert (A : accepted tcos tacos (SetLtauL11 0 0 d_one) rev_ready = true) by (vm_compute; reflexivity).
  assert (A' : accepted tcos tacos (SetLtauL11 0 0 d_one) rev_broken = false) by (vm_compute; reflexivity).
  assert (G' : c_n_derivs (h_cfg rev_ready) = 1%Z) by (vm_compute; reflexivity).
  assert (G2 : c_n_derivs (h_cfg rev_broken) = 0%Z) by (vm_compute; reflexivity).
  destruct (exec tcos tacos (Solution2 fx_bad) rev_ready) as [|e h'|] eqn:E; try discriminate B.
  assert (Q : rev_broken = h') by (unfold rev_broken, next; now rewrite E). rewrite Q in *.
  exists tnodes, rev_args, (trace tcos tacos rev_ops rev_handle), rev_ready, fx_bad, e, h'.
  split; [exact rev_ready_reach|]. split; [exact E|]. split; [unfold exec, getc, bind, cfg, ret; now rewrite G'|].
  split; [unfold exec, getc, bind, cfg, ret; now rewrite G2|]. auto.
Qed.
Print Assumptions C27_failure_restores_refuted.

Example C27_case_success : accepted tcos tacos (Solution2 fx_good) rev_ready = true.
Proof. vm_compute. reflexivity. Qed.
Example C27_case_refused_unchanged : exec tcos tacos (Solution2 fx_good) two_handle = Fail EM1 two_handle.
Proof. cbn [exec]. unfold done, solution_2, bind, cfg. replace (has_opt (h_cfg two_handle) OPT_CALC_DERIVS) with true by (vm_compute; reflexivity).
  replace (has_opt (h_cfg two_handle) OPT_REVERSE_DERIVS) with false by (vm_compute; reflexivity). reflexivity. Qed.
