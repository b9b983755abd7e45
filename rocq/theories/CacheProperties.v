(** Results after arbitrary histories of calls: what the caches keep coherent and what they do not.
    Every positive theorem holds for every arithmetic ([physics]); every refutation is a history, run on
    an arithmetic that only records what it was given ([term]). *)
From Coq Require Import List Bool PeanoNat Lia.
From Verif Require Import CacheModel CacheSpec CacheProofs CacheSteps CacheIdeal CacheHist.
Import ListNotations.
Open Scope nat_scope.

(** * An arithmetic that keeps a record of its arguments *)
Inductive term := T (k : nat) (l : list term).
Definition t0 (k : nat) : term := T k [].
(** A phase function fails the norm check when it is built from coefficients [T 66 _]. *)
Definition is_bad (c : term) : bool := match c with T k _ => k =? 66 end.
Definition rec_physics : physics term := {|
  none := t0 0;
  dm_f := fun a => T 1 [a]; dm_f_l := fun a b => T 2 [a; b];
  dm_coef := fun a b => T 3 [a; b]; dm_coef_l := fun a b c d => T 4 [a; b; c; d];
  dm_omega := fun a b => T 5 [a; b]; dm_omega_l := fun a b c d => T 6 [a; b; c; d];
  dm_ltau := fun a b c => T 7 [a; b; c]; dm_ltau_l := fun a b c d e f => T 8 [a; b; c; d; e; f];
  t_sum := T 9; t_lev := fun a b => T 10 [a; b]; t_scale := fun a b c => T 11 [a; T 0 b; T 0 c];
  chap := fun a b c => T 12 [a; b; c];
  tau0 := t0 13; tau0_l := t0 14; tran0 := t0 15; tran0_l := t0 16;
  b_pp := fun a b c => T 17 [a; b; c]; b_pp_l := fun a b c => T 18 [a; b; c];
  b_psa := fun a b => T 19 (a :: b); b_psa_l := fun a b => T 20 (a :: b);
  tran := fun a => T 21 [a]; tran_l := fun a b => T 22 [a; b]; sec := fun a b c => T 23 [a; b; c];
  sec_l := fun a b c d e => T 24 [a; b; c; d; e];
  att := fun a b => T 25 [a; b]; att_l := fun a b c d e => T 26 [a; b; c; d; e];
  cd0 := t0 27; cd_step := fun i a => T 28 [t0 i; a]; leg := fun i a b => T 29 [t0 i; a; b];
  quad := t0 30; xquad := fun a => T 31 [a]; neg := fun a => T 32 [a];
  ph_raw := fun k i l => T 33 l; ph_sym := fun _ a => T 34 [a];
  ph_bad := fun _ _ _ v => match v with T _ (c :: _) => is_bad c | _ => false end;
  loc := fun i l => T 35 l; thin := fun _ _ _ => false; lay0 := fun i l => T 36 l; lay := fun sv i l => T 37 (t0 sv :: l);
  tot := fun _ _ a b => T 38 (map (T 0) a ++ b); bnd := fun i l => T 39 l;
  small := fun _ => false; use_qq := fun _ => true; use_loc := fun _ => true;
  r_bvp := fun _ _ _ _ l => Some (T 40 l); r_add := fun _ _ _ _ _ l => Some (T 41 l);
  r_sgl := fun _ _ l => Some (T 42 l); r_tms := fun _ _ l => Some (T 43 l); r_cor := fun _ _ _ l => Some (T 44 l) |}.
Definition rec_x : inp term := fun _ _ => t0 50.
Definition rec_v (k : nat) : nat -> term := fun _ => t0 k.
Definition rec_junk : cid -> term := fun _ => t0 99.
(** Three layers, solar and thermal sources, derivatives. *)
Definition rec_opts (delta_m psa save_phase save_layer save_total : bool) : opts :=
  Build_opts 3 delta_m true psa true true true true false true false false false false false save_phase false save_layer save_total.
(** Does the handle give what a new handle with the same inputs gives? *)
Definition same_as_new {V} (P : physics V) (o : opts) (h : list op) (w : how) (k : nat) (x : inp V) (vf : nat -> V) (junk : cid -> V) : Prop :=
  snd (run P o (Solve w k) (runs P o h (fresh P x vf junk)))
  = snd (run P o (Solve w k) (fresh P (inputs h x) (flags h vf) junk)).

Section Theorems.
Context {V : Type} (P : physics V) (o : opts).

(** * C14: scaled optical properties *)
(** After any history the scaled properties of a layer, once refreshed, are those of the current inputs. *)
Theorem C14_scaled_properties_current h x vf junk l :
  Forall (no_toggle o) h ->
  let s := update_opt_props P o l (runs P o h (fresh P x vf junk)) in
  let y := inputs h x in
  e_coef o s l = t_coef P o y l /\ e_omega o s l = t_omega P o y l /\ e_ltau o s l = t_ltau P o y l /\
  e_coef_l P o s l = t_coef_l P o y l /\ e_omega_l P o s l = t_omega_l P o y l /\ e_ltau_l P o s l = t_ltau_l P o y l.
Proof.
  intros H s y.
  assert (I0 : optI P o (fresh P x vf junk)).
  { apply c_opt, (untouched_core P o); [apply fresh_base | apply fresh_untouched]. }
  assert (I : optI P o (runs P o h (fresh P x vf junk))) by now apply runs_optI.
  pose proof (opt_fresh P o s l (optI_opt P o l _ I) (opt_cl_opt P o _ l)) as K.
  unfold opt_ok in K. cbv zeta in K.
  assert (E : sx s = y).
  { unfold s, y. destruct (calm_opt P o l (runs P o h (fresh P x vf junk))) as [E _]. rewrite E, runs_sx. reflexivity. }
  rewrite E in K. exact K.
Qed.
(** The same after a refresh of the whole profile, for every layer. *)
Theorem C14_scaled_profile_current h x vf junk l :
  Forall (no_toggle o) h -> l < o_n o ->
  let s := update_opt_props_all P o (runs P o h (fresh P x vf junk)) in
  let y := inputs h x in
  e_coef o s l = t_coef P o y l /\ e_omega o s l = t_omega P o y l /\ e_ltau o s l = t_ltau P o y l /\
  e_coef_l P o s l = t_coef_l P o y l /\ e_omega_l P o s l = t_omega_l P o y l /\ e_ltau_l P o s l = t_ltau_l P o y l.
Proof.
  intros H Hl s y.
  assert (I0 : optI P o (fresh P x vf junk)).
  { apply c_opt, (untouched_core P o); [apply fresh_base | apply fresh_untouched]. }
  assert (I : optI P o s).
  { unfold s, update_opt_props_all. apply (j_onto (optI P o)); [intros; now apply optI_opt | now apply runs_optI]. }
  pose proof (opt_fresh P o s l I (opt_all_cl P o _ l Hl)) as K.
  unfold opt_ok in K. cbv zeta in K.
  assert (E : sx s = y).
  { unfold s, y. destruct (calm_opt_all P o (runs P o h (fresh P x vf junk))) as [E _]. rewrite E, runs_sx. reflexivity. }
  rewrite E in K. exact K.
Qed.

(** * C15: the beam *)
(** The level values down to level m and the layer values above it. *)
Definition beam_current (s : st) (y : inp V) (m : nat) : Prop :=
  (forall k, k <= m -> sca s (CBtau k) = t_btau P o y k /\ sca s (CBtran k) = t_btran P o y k /\
     (o_calc o = true -> sca s (CBtauL k) = t_btau_l P o y k /\ sca s (CBtranL k) = t_btran_l P o y k)) /\
  (forall l, l < m -> sca s (CAs l) = t_as P o y l /\ sca s (CAtran l) = t_atran P o y l /\
     (o_calc o = true -> sca s (CAsL l) = t_as_l P o y l /\ sca s (CAtranL l) = t_atran_l P o y l)).
Lemma down_current s y m : sx s = y -> down_ok P o s m -> beam_current s y m.
Proof. intros <- H. exact H. Qed.
Lemma start_core x vf junk : core P o (fresh P x vf junk) /\ U o (fresh P x vf junk).
Proof. apply (untouched_core P o); [apply fresh_base | apply fresh_untouched]. Qed.
(** Any history: whatever was set, in whatever order, and whichever solvers ran (two-way adding only under the
    discipline [reach]), a refresh of the whole profile leaves the beam of the current inputs. *)
Theorem C15_full_refresh_current reach h x vf junk :
  o_solar o = true -> disciplined_all P o reach h (fresh P x vf junk) ->
  beam_current (update_beam_params_all P o (runs P o h (fresh P x vf junk))) (inputs h x) (o_n o).
Proof.
  intros SO D. destruct (start_core x vf junk) as [C0 U0].
  destruct (runs_core P o reach h _ D (fresh_base P x vf junk) (conj C0 (fun _ => U0))) as [C _].
  destruct (core_beam_all P o _ C) as (C' & _ & R).
  apply down_current; [|now apply (b_fresh P o)].
  unfold update_beam_params_all. destruct (calm_beam P o (o_n o) (runs P o h (fresh P x vf junk))) as [E _].
  rewrite E, runs_sx. reflexivity.
Qed.
(** The refresh of one level and what is above it, under the discipline. *)
Theorem C15_partial_refresh_current h x vf junk l :
  o_solar o = true -> l < o_n o -> disciplined_all P o true h (fresh P x vf junk) ->
  beam_current (update_beam_params P o l (runs P o h (fresh P x vf junk))) (inputs h x) (S l).
Proof.
  intros SO Hl D. destruct (start_core x vf junk) as [C0 U0].
  destruct (runs_core P o true h _ D (fresh_base P x vf junk) (conj C0 (fun _ => U0))) as [C UU].
  destruct (core_beam P o l _ C (Nat.lt_le_incl _ _ Hl) (or_intror (UU eq_refl))) as (C' & _ & R).
  replace (l =? o_n o) with false in R by (symmetry; apply Nat.eqb_neq; lia).
  apply down_current; [|now apply (b_fresh P o)].
  destruct (calm_beam P o l (runs P o h (fresh P x vf junk))) as [E _]. rewrite E, runs_sx. reflexivity.
Qed.

(** * C16, C17, C18: solutions *)
Lemma start_all sv d reach x vf junk : inv_all P o reach sv d (fresh P x vf junk).
Proof. apply (untouched_all P o); [apply fresh_base | apply fresh_untouched]. Qed.
Lemma no_save_id : some_save o = false -> no_save o = o.
Proof.
  unfold some_save, no_save. destruct o; cbn. intros H.
  apply orb_false_elim in H. destruct H as [H H4]. apply orb_false_elim in H. destruct H as [H H3].
  apply orb_false_elim in H. destruct H as [H1 H2]. now subst.
Qed.
(** Without saving options. *)
Theorem C16_solution_of_current_inputs reach sv d h x vf junk w k junk' :
  some_save o = false ->
  careful_all P o reach sv d (h ++ [Solve w k]) (fresh P x vf junk) ->
  snd (run P o (Solve w k) (runs P o h (fresh P x vf junk)))
  = snd (run P o (Solve w k) (fresh P (inputs h x) (flags h vf) junk')).
Proof.
  intros N K.
  assert (SL : o_save_layer o = true -> reach = true).
  { intros E. unfold some_save in N. rewrite E, !orb_true_r in N. discriminate. }
  assert (K2 : forall s, careful_all P o reach sv d (h ++ [Solve w k]) s ->
            careful_all P o reach sv d h s /\ careful P o reach sv d (runs P o h s) (Solve w k)).
  { clear K. induction h as [|c h IH]; intros s K.
    - destruct K as [K _]. exact (conj Logic.I K).
    - destruct K as [K1 K]. destruct (IH _ K) as [A B]. exact (conj (conj K1 A) B). }
  destruct (K2 _ K) as [A B].
  rewrite (as_new P o reach sv d SL h _ w k junk' (start_all sv d reach x vf junk) A B), no_save_id by exact N. reflexivity.
Qed.
(** With saving options: what is reused is what a new handle, saving or not, would compute. *)
Theorem C17_saved_results_valid reach sv d h x vf junk w k junk' :
  (o_save_layer o = true -> reach = true) ->
  careful_all P o reach sv d (h ++ [Solve w k]) (fresh P x vf junk) ->
  snd (run P o (Solve w k) (runs P o h (fresh P x vf junk)))
  = snd (run P (no_save o) (Solve w k) (fresh P (inputs h x) (flags h vf) junk')) /\
  snd (run P o (Solve w k) (runs P o h (fresh P x vf junk)))
  = snd (run P o (Solve w k) (fresh P (inputs h x) (flags h vf) junk')).
Proof.
  intros SL K.
  assert (K2 : forall s, careful_all P o reach sv d (h ++ [Solve w k]) s ->
            careful_all P o reach sv d h s /\ careful P o reach sv d (runs P o h s) (Solve w k)).
  { clear K. induction h as [|c h IH]; intros s K.
    - destruct K as [K _]. exact (conj Logic.I K).
    - destruct K as [K1 K]. destruct (IH _ K) as [A B]. exact (conj (conj K1 A) B). }
  destruct (K2 _ K) as [A B].
  assert (E : snd (run P o (Solve w k) (runs P o h (fresh P x vf junk)))
    = snd (run P (no_save o) (Solve w k) (fresh P (inputs h x) (flags h vf) junk')))
    by exact (as_new P o reach sv d SL h _ w k junk' (start_all sv d reach x vf junk) A B).
  refine (conj E _). rewrite E. symmetry.
  (* the new handle with the saving options on *)
  destruct B as (D & NT & OS & G). rewrite runs_sx, runs_svf in G.
  apply (as_new P o reach sv d SL [] (fresh P (inputs h x) (flags h vf) junk') w k junk' (start_all sv d reach _ _ junk') Logic.I).
  exact (conj D (conj NT (conj OS G))).
Qed.
(** After a clear the earlier history does not matter at all. *)
Theorem C18_clear_forgets reach sv d h h' x vf junk w k junk' :
  (o_save_layer o = true -> reach = true) ->
  careful_all P o reach sv d (h' ++ [Solve w k]) (runs P o (h ++ [Clear]) (fresh P x vf junk)) ->
  snd (run P o (Solve w k) (runs P o (h ++ [Clear] ++ h') (fresh P x vf junk)))
  = snd (run P o (Solve w k) (fresh P (inputs (h ++ [Clear] ++ h') x) (flags (h ++ [Clear] ++ h') vf) junk')).
Proof.
  intros SL K.
  assert (AP : forall (a b : list op) s, runs P o (a ++ b) s = runs P o b (runs P o a s)).
  { induction a as [|c a IH]; intros b s; [reflexivity|]. cbn [app runs]. apply IH. }
  set (s := runs P o (h ++ [Clear]) (fresh P x vf junk)) in *.
  assert (B0 : base P s) by (apply runs_base, fresh_base).
  assert (UN : untouched s) by (unfold s; rewrite AP; intros f d'; reflexivity).
  assert (K2 : forall s, careful_all P o reach sv d (h' ++ [Solve w k]) s ->
            careful_all P o reach sv d h' s /\ careful P o reach sv d (runs P o h' s) (Solve w k)).
  { clear K. induction h' as [|c h' IH]; intros s1 K.
    - destruct K as [K _]. exact (conj Logic.I K).
    - destruct K as [K1 K]. destruct (IH _ K) as [A B]. exact (conj (conj K1 A) B). }
  destruct (K2 _ K) as [A B].
  replace (h ++ [Clear] ++ h') with ((h ++ [Clear]) ++ h') by (rewrite <- app_assoc; reflexivity).
  rewrite AP. fold s.
  pose proof (as_new P o reach sv d SL h' s w k junk' (untouched_all P o reach sv d s B0 UN) A B) as E. rewrite E.
  assert (X : inputs h' (sx s) = inputs ((h ++ [Clear]) ++ h') x).
  { transitivity (inputs h' (inputs (h ++ [Clear]) x)); [f_equal; exact (runs_sx P o _ _) | symmetry; apply fold_left_app]. }
  assert (W : flags h' (svf s) = flags ((h ++ [Clear]) ++ h') vf).
  { transitivity (flags h' (flags (h ++ [Clear]) vf)); [f_equal; exact (runs_svf P o _ _) | symmetry; apply fold_left_app]. }
  rewrite X, W. symmetry.
  clearbody s. destruct B as (D & NT & OS & G). rewrite runs_sx, runs_svf, X, W in G.
  apply (as_new P o reach sv d SL [] (fresh P (inputs ((h ++ [Clear]) ++ h') x) (flags ((h ++ [Clear]) ++ h') vf) junk') w k junk' (start_all sv d reach _ _ junk') Logic.I).
  exact (conj D (conj NT (conj OS G))).
Qed.
End Theorems.

(** * Readable forms *)
Section Plain.
Context {V : Type} (P : physics V) (o : opts).
(** After the first solution: no input that was left out of a list, no change of the derivative flags, no call that
    switches derivatives off; two-way adding only if layer inputs are set from some layer down to the surface. *)
Definition plain (reach : bool) (c : @op V) : Prop :=
  match c with
  | Set_ b _ e _ => left_out o b = false /\ (reach = true -> per_layer b = true -> e = o_n o)
  | Update _ => False
  | Clear => True
  | Solve h _ => reach = false -> is_both h = false
  | Solve_no_calc h _ => o_calc o = false /\ (reach = false -> is_both h = false)
  end.
Lemma setup_untouched h (s : st) : Forall setup h -> untouched s -> untouched (runs P o h s).
Proof.
  intros H. revert s. induction H as [|c h Hc H IH]; intros s U; [exact U|]. cbn [runs]. apply IH.
  destruct c; cbn [setup run fst] in *; try contradiction; [now apply set_untouched | exact U | intros f d; reflexivity].
Qed.
Lemma setup_careful reach sv d h h' (s : st) : Forall setup h -> untouched s ->
  careful_all P o reach sv d h' (runs P o h s) -> careful_all P o reach sv d (h ++ h') s.
Proof.
  intros H. revert s. induction H as [|c h Hc H IH]; intros s U K; [exact K|]. cbn [app careful_all runs] in *.
  pose proof (setup_untouched [c] s (Forall_cons _ Hc (Forall_nil _)) U) as U'.
  split; [|now apply IH]. unfold careful.
  destruct c; cbn [setup disciplined no_toggle] in *; try contradiction;
    refine (conj _ (conj Logic.I _)); try exact Logic.I; left; exact U.
Qed.
Lemma plain_careful reach h (s : st) : some_save o = false -> Forall (plain reach) h -> careful_all P o reach 0 Both h s.
Proof.
  intros N H. revert s. induction H as [|c h Hc H IH]; intros s; [exact Logic.I|]. cbn [careful_all]. split; [|apply IH].
  assert (BS : big_save o = false).
  { unfold some_save in N. unfold big_save. destruct (o_save_layer o), (o_save_total o); rewrite ?orb_true_r in N; try discriminate N; reflexivity. }
  assert (OS : forall w, one_solver o 0 Both w) by (intros [|sv d|]; cbn; try exact Logic.I; rewrite BS; discriminate).
  unfold careful. destruct c; cbn [plain disciplined no_toggle] in *; try contradiction.
  - destruct Hc as [A B]. refine (conj (or_intror B) (conj Logic.I (or_intror A))).
  - exact (conj Logic.I (conj Logic.I Logic.I)).
  - refine (conj Hc (conj Logic.I (conj (OS _) _))). rewrite N. discriminate.
  - destruct Hc as [A B]. refine (conj B (conj A (conj (OS _) _))). rewrite N. discriminate.
Qed.
(** A handle is set up in any way, then solutions and changes of inputs follow in any order. *)
Theorem C16_set_up_then_plain reach h0 h1 x vf junk w k :
  some_save o = false -> Forall setup h0 -> Forall (plain reach) h1 -> (reach = false -> is_both w = false) ->
  snd (run P o (Solve w k) (runs P o (h0 ++ h1) (fresh P x vf junk)))
  = snd (run P o (Solve w k) (fresh P (inputs (h0 ++ h1) x) (flags (h0 ++ h1) vf) junk)).
Proof.
  intros N H0 H1 HW. apply (C16_solution_of_current_inputs P o reach 0 Both); [exact N|].
  rewrite <- app_assoc. apply setup_careful; [exact H0 | apply fresh_untouched|].
  apply plain_careful; [exact N|]. apply Forall_app. split; [exact H1 | constructor; [exact HW | constructor]].
Qed.
(** Whatever happened before, the first solution after a clear is that of a new handle. *)
Theorem C18_next_solution h x vf junk w k junk' :
  (some_save o = true -> forall j, snd (run P (no_save o) (Solve w k) (fresh P (inputs h x) (flags h vf) j)) <> None) ->
  snd (run P o (Solve w k) (runs P o (h ++ [Clear]) (fresh P x vf junk)))
  = snd (run P o (Solve w k) (fresh P (inputs h x) (flags h vf) junk')).
Proof.
  intros G.
  assert (EX : inputs (h ++ [Clear]) x = inputs h x) by (unfold inputs; rewrite fold_left_app; reflexivity).
  assert (EF : flags (h ++ [Clear]) vf = flags h vf) by (unfold flags; rewrite fold_left_app; reflexivity).
  set (sv := match w with Add sv _ => sv | _ => 0 end). set (d := match w with Add _ d => d | _ => Both end).
  pose proof (C18_clear_forgets P o true sv d h [] x vf junk w k junk' (fun _ => eq_refl)) as K.
  cbn [app] in K. rewrite EX, EF in K. apply K. clear K.
  split; [|exact Logic.I]. refine (conj _ (conj Logic.I (conj _ _))).
  - discriminate.
  - destruct w; cbn; try exact Logic.I. intros _. split; [reflexivity | now left].
  - intros Q j. rewrite runs_sx, runs_svf.
    change (sx (fresh P x vf junk)) with x. change (svf (fresh P x vf junk)) with vf.
    rewrite EX, EF. now apply G.
Qed.
End Plain.

(** * Examples: histories that meet the hypotheses *)
Definition rec_setup : list (@op term) := [Set_ COEF 0 3 (rec_v 51); Set_ UMUS 0 0 (rec_v 52); Update (rec_v 53)].
Definition rec_later : list (@op term) :=
  [Solve (Add 0 Both) 2; Set_ LTAU 1 3 (rec_v 54); Solve (Bvp 1) 1; Set_ OMEGA 2 3 (rec_v 55); Set_ MU_0 0 0 (rec_v 56); Set_ F_0 0 0 (rec_v 57)].
Example C16_example_plain :
  let o := rec_opts true true false false false in
  some_save o = false /\ Forall setup rec_setup /\ Forall (plain o true) rec_later /\
  snd (run rec_physics o (Solve (Add 0 Both) 1) (runs rec_physics o (rec_setup ++ rec_later) (fresh rec_physics rec_x (rec_v 53) rec_junk))) <> None.
Proof.
  refine (conj eq_refl (conj _ (conj _ _))).
  - repeat constructor.
  - repeat constructor; try discriminate; reflexivity.
  - vm_compute. discriminate.
Qed.
Example C14_example_history : Forall (no_toggle (rec_opts true true false false false)) (rec_setup ++ rec_later).
Proof. repeat constructor. Qed.
Lemma plain_disciplined (o : opts) reach (h : list (@op term)) s :
  Forall (plain o reach) h -> disciplined_all rec_physics o reach h s.
Proof.
  intros H. revert s. induction H as [|c h Hc H IH]; intros s; [exact Logic.I|]. cbn [disciplined_all].
  refine (conj _ (conj _ (IH _))); destruct c; cbn [plain disciplined no_toggle] in *; try contradiction; try exact Logic.I; try tauto.
Qed.
Example C15_example_history :
  let o := rec_opts true true false false false in
  disciplined_all rec_physics o true rec_later (fresh rec_physics rec_x (rec_v 53) rec_junk).
Proof. apply plain_disciplined. repeat constructor; try discriminate; reflexivity. Qed.
(** Saved layers and totals: one solver, one direction, layer changes down to the surface. *)
Definition rec_saving : list (@op term) :=
  [Set_ COEF 0 3 (rec_v 51); Solve (Add 0 Top) 2; Set_ LTAU 1 3 (rec_v 54); Solve (Add 0 Top) 1; Set_ MU_0 0 0 (rec_v 56)].
Lemma rec_no_error o h k x vf junk : (forall l, is_bad (x COEF l) = false) ->
  snd (run rec_physics (no_save o) (Solve h k) (fresh rec_physics x vf junk)) <> None.
Proof.
  intros G. cbn [run]. rewrite (fresh_ok rec_physics o 0 Both). unfold i_solve.
  assert (PH : forall q i4 l, i_ph rec_physics o x vf q i4 l = Some (i_sym rec_physics o x vf q i4 l)).
  { intros q i4 l. unfold i_ph. unfold i_raw at 1. cbn [ph_bad ph_raw rec_physics]. now rewrite G. }
  assert (MP : forall A B (f : A -> option B) l, (forall a, f a <> None) -> mapO f l <> None).
  { intros A B f l Hf. induction l as [|a l IH]; [discriminate|]. cbn [mapO]. unfold obind.
    specialize (Hf a). destruct (f a); [|congruence]. destruct (mapO f l); [discriminate | congruence]. }
  assert (OB : forall A B (m : option A) (f : A -> option B), m <> None -> (forall a, f a <> None) -> obind m f <> None).
  { intros A B m f Hm Hf. destruct m as [a|]; [apply Hf | congruence]. }
  assert (PS : forall q i4, i_phs rec_physics o x vf q i4 <> None).
  { intros q i4. unfold i_phs. apply MP. intros l. rewrite PH. discriminate. }
  assert (IL : forall b m, m <> None -> @i_list term b m <> None).
  { intros b m Hm. unfold i_list. destruct b; [exact Hm | discriminate]. }
  assert (LO : forall i4 l, i_local rec_physics o x vf i4 l <> None).
  { intros i4 l. unfold i_local. rewrite PH. discriminate. }
  assert (LA : forall sv i4 l, i_layer rec_physics o x vf sv i4 l <> None).
  { intros sv i4 l. unfold i_layer. cbn [thin rec_physics]. apply OB.
    - destruct (o_solar o); [rewrite PH|]; discriminate.
    - intros a. apply OB; [apply LO | discriminate]. }
  assert (TU : forall sv i4 l, i_turn rec_physics o x vf sv i4 l <> None).
  { intros sv i4 l. unfold i_turn. apply OB; [apply LA | discriminate]. }
  assert (FO : forall i4, i_fourier rec_physics o x vf i4 <> None).
  { intros i4. unfold i_fourier. destruct (_ && _); [|discriminate]. apply OB; [apply PS|]. intros a. apply OB; [|discriminate]. apply IL, PS. }
  apply OB.
  - unfold i_corr. destruct (_ && _); discriminate.
  - intros c. apply OB; [|discriminate]. destruct h as [sv|sv d|]; cbn [i_terms].
    + apply MP. intros i4. apply OB; [|intros a; apply OB; [apply FO | discriminate]].
      unfold i_bvp. repeat (apply OB; [apply IL; try apply PS; apply MP; apply LO | intros ?]). discriminate.
    + apply MP. intros i4. apply OB; [|intros a; apply OB; [apply FO | discriminate]].
      unfold i_add. destruct d; (apply OB; [|discriminate]); apply OB; try discriminate; apply MP, TU.
    + discriminate.
Qed.
Example C17_example_history :
  let o := rec_opts true true true true true in
  careful_all rec_physics o true 0 Top (rec_saving ++ [Solve (Add 0 Top) 1]) (fresh rec_physics rec_x (rec_v 53) rec_junk).
Proof.
  cbv zeta. cbn [rec_saving app careful_all].
  assert (G : forall (c : list (@op term)) j k, (forall l, is_bad (inputs c rec_x COEF l) = false) ->
    some_save (rec_opts true true true true true) = true -> forall junk : cid -> term,
    snd (run rec_physics (no_save (rec_opts true true true true true)) (Solve j k) (fresh rec_physics (inputs c rec_x) (rec_v 53) junk)) <> None).
  { intros c j k H _ junk. now apply rec_no_error. }
  assert (D : forall c s, match c with Set_ b _ e _ => left_out (rec_opts true true true true true) b = false /\ (per_layer b = true -> e = 3)
     | Solve (Add 0 Top) k => sx s = inputs [] (sx s) /\ (forall l, is_bad (sx s COEF l) = false) | _ => False end ->
     careful rec_physics (rec_opts true true true true true) true 0 Top s c).
  { intros c s H. destruct c as [b a e v| | |h k|]; try contradiction.
    - destruct H as [A B]. refine (conj (or_intror _) (conj Logic.I (or_intror A))). intros _. exact B.
    - destruct h as [|[|] [| |]|]; try contradiction. destruct H as [_ B].
      refine (conj _ (conj Logic.I (conj _ _))); [discriminate | intros _; split; [reflexivity | now left] |].
      intros _ junk. now apply rec_no_error. }
  repeat match goal with |- _ /\ _ => split end; try exact Logic.I; apply D; try (split; [reflexivity|]; intros; try reflexivity; discriminate).
  all: split; [reflexivity|]; intros l.
  all: rewrite !run_sx; cbn [after per_layer dep_eqb andb]; try reflexivity.
  all: change (sx (fresh rec_physics rec_x (rec_v 53) rec_junk)) with rec_x; cbn [after per_layer dep_eqb andb]; now destruct (_ && _).
Qed.

(** * Histories after which a handle does not give what a new one gives *)
Definition rec_start : @st term := fresh rec_physics rec_x (rec_v 53) rec_junk.
Definition stale (o : opts) (h : list (@op term)) (w : how) : Prop := ~ same_as_new rec_physics o h w 1 rec_x (rec_v 53) rec_junk.
Ltac differs := unfold stale, same_as_new; let E := fresh "E" in intros E; vm_compute in E; discriminate E.

(** xrtm_solution_2 runs the solver with derivatives off: it marks the scaled properties of a changed layer as current
    although their derivatives were not renewed. *)
Theorem C14_derivatives_after_toggle_refuted :
  exists (o : opts) (h : list op), o_save_phase o = false /\ Forall (fun c => match c with Solve_no_calc (Bvp _) _ | Set_ COEF _ _ _ => True | _ => False end) h /\
  e_coef_l rec_physics o (update_opt_props_all rec_physics o (runs rec_physics o h rec_start)) 0
  <> t_coef_l rec_physics o (inputs h rec_x) 0.
Proof.
  exists (rec_opts true false false false false), [Set_ COEF 0 3 (rec_v 51); Solve_no_calc (Bvp 0) 1].
  refine (conj eq_refl (conj _ _)); [repeat constructor|]. intros E. vm_compute in E. discriminate E.
Qed.
Theorem C14_solution_after_toggle_refuted :
  exists o h w, some_save o = false /\ h = [Set_ COEF 0 3 (rec_v 51); Solve_no_calc (Bvp 0) 1] /\ stale o h w.
Proof.
  exists (rec_opts true false false false false), [Set_ COEF 0 3 (rec_v 51); Solve_no_calc (Bvp 0) 1], (Bvp 0).
  refine (conj eq_refl (conj eq_refl _)). differs.
Qed.
(** Two-way adding after a change of one layer above the lowest: the levels below keep their old beam. *)
Theorem C15_one_layer_change_refuted :
  exists o h w, some_save o = false /\ h = [Solve (Add 0 Both) 1; Set_ LTAU 0 1 (rec_v 54)] /\ w = Add 0 Both /\ stale o h w /\
    sca (fst (run rec_physics o (Solve w 1) (runs rec_physics o h rec_start))) (CBtau (o_n o)) <> t_btau rec_physics o (inputs h rec_x) (o_n o).
Proof.
  exists (rec_opts false false false false false), [Solve (Add 0 Both) 1; Set_ LTAU 0 1 (rec_v 54)], (Add 0 Both).
  refine (conj eq_refl (conj eq_refl (conj eq_refl (conj _ _)))); [differs|]. intros E. vm_compute in E. discriminate E.
Qed.
(** Each input missing from the list of the boundary sources, with a boundary-value solver and no saving option. *)
Theorem C16_left_out_input_refuted b :
  In b [UMUS; SURFACE_B; SURFACE_B_L; F_ISO_TOP_L; F_ISO_BOT_L] ->
  exists o h, some_save o = false /\ h = [Solve (Bvp 0) 1; Set_ b 0 0 (rec_v 54)] /\ stale o h (Bvp 0).
Proof.
  intros H. exists (rec_opts false false false false false), [Solve (Bvp 0) 1; Set_ b 0 0 (rec_v 54)].
  refine (conj eq_refl (conj eq_refl _)).
  destruct H as [<-|[<-|[<-|[<-|[<-|[]]]]]]; differs.
Qed.
(** So does a change of the derivative flags of the surface. *)
Theorem C16_flag_change_refuted :
  exists o h, some_save o = false /\ h = [Solve (Bvp 0) 1; Update (fun l => if l =? o_n o then t0 54 else t0 53)] /\ stale o h (Bvp 0).
Proof.
  exists (rec_opts false false false false false), [Solve (Bvp 0) 1; Update (fun l => if l =? 3 then t0 54 else t0 53)].
  refine (conj eq_refl (conj eq_refl _)). differs.
Qed.
(** Each input missing from the list of the layer results, with saved layers, and with saved totals. *)
Theorem C17_left_out_input_refuted b sl stt :
  In b [F_0; DOUB_D_TAU; LEVELS_B; LEVELS_B_L] -> sl || stt = true ->
  exists h, h = [Solve (Add 0 Top) 1; Set_ b 0 0 (rec_v 54)] /\ stale (rec_opts false false false sl stt) h (Add 0 Top).
Proof.
  intros H HS. exists [Solve (Add 0 Top) 1; Set_ b 0 0 (rec_v 54)]. refine (conj eq_refl _).
  destruct sl, stt; try discriminate HS; destruct H as [<-|[<-|[<-|[<-|[]]]]]; differs.
Qed.
(** Another solver is handed the layers the first one saved. *)
Theorem C17_other_solver_refuted sl stt :
  sl || stt = true -> stale (rec_opts false false false sl stt) [Solve (Add 0 Top) 1] (Add 1 Top).
Proof. intros HS. destruct sl, stt; try discriminate HS; differs. Qed.
(** Saved phase matrices, layers and totals are reused with other derivative flags than they were built with. *)
Theorem C17_flag_change_refuted sp sl stt :
  sp || sl || stt = true ->
  stale (rec_opts false false sp sl stt) [Solve (Add 0 Top) 1; Update (fun l => if l =? 3 then t0 53 else t0 54)] (Add 0 Top).
Proof. intros HS. destruct sp, sl, stt; try discriminate HS; differs. Qed.
(** With spherical beam paths a saved layer depends on the layers above it, but is flagged for its own inputs only. *)
Theorem C17_layer_above_refuted :
  exists o h, o_psa o = true /\ o_save_layer o = true /\ h = [Solve (Add 0 Top) 1; Set_ LTAU 0 1 (rec_v 54)] /\ stale o h (Add 0 Top).
Proof.
  exists (rec_opts false true false true false), [Solve (Add 0 Top) 1; Set_ LTAU 0 1 (rec_v 54)].
  refine (conj eq_refl (conj eq_refl (conj eq_refl _))). differs.
Qed.
(** A phase matrix that fails the norm check is saved: the same call, made often enough, reports no error. *)
Theorem C17_failed_check_refuted :
  exists o (x : inp term) w, o_save_phase o = true /\
    let s := fresh rec_physics x (rec_v 53) rec_junk in
    let r := run rec_physics o (Solve w 1) in
    snd (r s) = None /\ snd (r (runs rec_physics o [Solve w 1; Solve w 1; Solve w 1; Solve w 1; Solve w 1; Solve w 1] s)) <> None.
Proof.
  exists (rec_opts false false true false false), (fun _ l => if l =? 0 then t0 66 else t0 50), (Bvp 0). refine (conj eq_refl _). cbv zeta.
  split; [vm_compute; reflexivity|]. intros E. vm_compute in E. discriminate E.
Qed.
(** And after a clear it is checked again. *)
Example C18_example_error :
  let o := rec_opts false false true false false in
  let s := fresh rec_physics (fun _ l => if l =? 0 then t0 66 else t0 50) (rec_v 53) rec_junk in
  snd (run rec_physics o (Solve (Bvp 0) 1) (runs rec_physics o [Solve (Bvp 0) 1; Solve (Bvp 0) 1; Clear] s)) = None.
Proof. vm_compute. reflexivity. Qed.
(** A clear repairs each of the histories above. *)
Example C18_example_repair b : In b [F_0; DOUB_D_TAU; LEVELS_B; LEVELS_B_L; UMUS; SURFACE_B] ->
  same_as_new rec_physics (rec_opts false false true true true) ([Solve (Add 0 Top) 1; Solve_no_calc (Bvp 0) 1; Set_ b 0 0 (rec_v 54)] ++ [Clear]) (Add 0 Top) 1 rec_x (rec_v 53) rec_junk.
Proof.
  intros _. unfold same_as_new. rewrite (C18_next_solution rec_physics _ _ rec_x (rec_v 53) rec_junk (Add 0 Top) 1 rec_junk).
  - unfold inputs, flags. rewrite !fold_left_app. reflexivity.
  - intros _ j. apply rec_no_error. intros l. cbn. destruct (per_layer b); destruct b; cbn; try reflexivity; destruct (_ && _); reflexivity.
Qed.

Print Assumptions C14_scaled_properties_current.
Print Assumptions C14_scaled_profile_current.
Print Assumptions C14_derivatives_after_toggle_refuted.
Print Assumptions C14_solution_after_toggle_refuted.
Print Assumptions C15_full_refresh_current.
Print Assumptions C15_partial_refresh_current.
Print Assumptions C15_one_layer_change_refuted.
Print Assumptions C16_solution_of_current_inputs.
Print Assumptions C16_set_up_then_plain.
Print Assumptions C16_left_out_input_refuted.
Print Assumptions C16_flag_change_refuted.
Print Assumptions C17_saved_results_valid.
Print Assumptions C17_left_out_input_refuted.
Print Assumptions C17_other_solver_refuted.
Print Assumptions C17_flag_change_refuted.
Print Assumptions C17_layer_above_refuted.
Print Assumptions C17_failed_check_refuted.
Print Assumptions C18_clear_forgets.
Print Assumptions C18_next_solution.
