(** What the stored quantities should be: functions of the inputs alone, and the histories the
    statements are about.  Nothing here looks at a flag word or at a stored quantity. *)
From Coq Require Import List Bool PeanoNat.
From Verif Require Import CacheModel.
Import ListNotations.
Open Scope nat_scope.

Section Spec.
Context {V : Type} (P : physics V) (o : opts) (x : inp V).

Definition t_f (l : nat) : V := dm_f P (x COEF l).
Definition t_f_l (l : nat) : V := dm_f_l P (x COEF l) (x COEF_L l).
(** The optical properties a solver has to use: delta-M scaled when asked for. *)
Definition t_coef (l : nat) : V := if o_delta_m o then dm_coef P (t_f l) (x COEF l) else x COEF l.
Definition t_omega (l : nat) : V := if o_delta_m o then dm_omega P (t_f l) (x OMEGA l) else x OMEGA l.
Definition t_ltau (l : nat) : V := if o_delta_m o then dm_ltau P (t_f l) (x OMEGA l) (x LTAU l) else x LTAU l.
Definition t_calc (v : V) : V := if o_calc o then v else none P.
Definition t_coef_l (l : nat) : V :=
  t_calc (if o_delta_m o then dm_coef_l P (t_f l) (t_f_l l) (x COEF l) (x COEF_L l) else x COEF_L l).
Definition t_omega_l (l : nat) : V :=
  t_calc (if o_delta_m o then dm_omega_l P (t_f l) (t_f_l l) (x OMEGA l) (x OMEGA_L l) else x OMEGA_L l).
Definition t_ltau_l (l : nat) : V :=
  t_calc (if o_delta_m o then dm_ltau_l P (t_f l) (t_f_l l) (x OMEGA l) (x OMEGA_L l) (x LTAU l) (x LTAU_L l)
          else x LTAU_L l).

(** The beam, level by level from the top. *)
Definition t_chap : V := chap P (x MU_0 0) (x PLANET_R 0) (x LEVELS_Z 0).
Fixpoint t_btau (m : nat) : V :=
  match m with
  | 0 => tau0 P
  | S i => if o_psa o then b_psa P t_chap (map t_ltau (seq 0 (S i))) else b_pp P (t_btau i) (t_ltau i) (x MU_0 0)
  end.
Fixpoint t_btau_l (m : nat) : V :=
  match m with
  | 0 => tau0_l P
  | S i => if o_psa o then b_psa_l P t_chap (map t_ltau_l (seq 0 (S i))) else b_pp_l P (t_btau_l i) (t_ltau_l i) (x MU_0 0)
  end.
Definition t_btran (m : nat) : V := match m with 0 => tran0 P | _ => tran P (t_btau m) end.
Definition t_btran_l (m : nat) : V := match m with 0 => tran0_l P | _ => tran_l P (t_btau_l m) (t_btran m) end.
Definition t_as (l : nat) : V := sec P (t_btau (S l)) (t_btau l) (t_ltau l).
Definition t_as_l (l : nat) : V := sec_l P (t_btau_l (S l)) (t_btau_l l) (t_as l) (t_ltau_l l) (t_ltau l).
Definition t_atran (l : nat) : V := att P (t_ltau l) (t_as l).
Definition t_atran_l (l : nat) : V := att_l P (t_ltau_l l) (t_as l) (t_ltau l) (t_as_l l) (t_atran l).
End Spec.

(** The same handle without SAVE_PHASE_MATS, SAVE_LOCAL_R_T, SAVE_LAYER_R_T_S and SAVE_TOTAL_R_T_S. *)
Definition no_save (o : opts) : opts :=
  Build_opts (o_n o) (o_delta_m o) (o_calc o) (o_psa o) (o_sfi o) (o_solar o) (o_thermal o) (o_scalar o) (o_taus o) (o_umus o)
    (o_two o) (o_pade o) (o_tms o) (o_conv o) (o_save_leg o) false false false false.

Section Histories.
Context {V : Type} (P : physics V) (o : opts).

(** The calls one after the other. *)
Fixpoint runs (h : list (@op V)) (s : st) : st :=
  match h with [] => s | c :: h => runs h (fst (run P o c s)) end.
(** The inputs and the derivative flags a history leaves behind, from the calls alone. *)
Definition after (c : @op V) (x : inp V) : inp V :=
  match c with
  | Set_ b a e v =>
      if per_layer b then fun b' l => if dep_eqb b b' && ((a <=? l) && (l <? e)) then v l else x b' l
      else fun b' l => if dep_eqb b b' then v l else x b' l
  | _ => x
  end.
Definition inputs (h : list (@op V)) (x : inp V) : inp V := fold_left (fun x c => after c x) h x.
Definition flags (h : list (@op V)) (vf : nat -> V) : nat -> V :=
  fold_left (fun vf c => match c with Update v => v | _ => vf end) h vf.
(** Derivatives are never switched off behind the user's back. *)
Definition no_toggle (c : @op V) : Prop := match c with Solve_no_calc _ _ => o_calc o = false | _ => True end.
Definition is_both (h : how) : bool := match h with Add _ Both => true | _ => false end.
(** Nothing has been computed since the handle was created or cleared. *)
Definition untouched (s : @st V) : Prop := forall f d, sfl s f d = true.
(** [reach] is the discipline for two-way adding: once something has been computed, a layer input is only ever
    set from some layer down to the surface.  Without it two-way adding is not called. *)
Definition disciplined (reach : bool) (s : st) (c : @op V) : Prop :=
  match c with
  | Set_ b a e _ => untouched s \/ (reach = true -> per_layer b = true -> e = o_n o)
  | Solve h _ | Solve_no_calc h _ => reach = false -> is_both h = false
  | _ => True
  end.
Fixpoint disciplined_all (reach : bool) (h : list (@op V)) (s : st) : Prop :=
  match h with
  | [] => True
  | c :: h => disciplined reach s c /\ no_toggle c /\ disciplined_all reach h (fst (run P o c s))
  end.

Definition some_save : bool := o_save_phase o || o_save_local o || o_save_layer o || o_save_total o.
Definition big_save : bool := o_save_layer o || o_save_total o.
(** The inputs that were left out of a dependency list they belong in: the boundary sources read surface
    emission, the derivatives of the isotropic sources and the user angles; saved layer and total results
    read the beam flux, the doubling start thickness and the level emission. *)
Definition left_out (b : dep) : bool :=
  match b with
  | UMUS => true
  | SURFACE_B => o_thermal o
  | SURFACE_B_L => o_thermal o && o_calc o
  | F_ISO_TOP_L | F_ISO_BOT_L => o_calc o
  | F_0 => big_save && o_solar o
  | DOUB_D_TAU => big_save
  | LEVELS_B => big_save && o_thermal o
  | LEVELS_B_L => big_save && o_thermal o && o_calc o
  | _ => false
  end.
(** With saved layer or total results one solver [sv] and one direction [d] is used. *)
Definition one_solver (sv : nat) (d : dir) (h : how) : Prop :=
  match h with Add sv' d' => big_save = true -> sv' = sv /\ (d' = d \/ d' = Bottom) | _ => True end.
(** The call [c] in the situation [s]: no left-out input changes once something has been computed; nor do the
    derivative flags, where something saved was built with them; with a saving option on, a new handle without it
    would not report an error. *)
Definition careful (reach : bool) (sv : nat) (d : dir) (s : st) (c : @op V) : Prop :=
  disciplined reach s c /\ no_toggle c /\
  match c with
  | Set_ b _ _ _ => untouched s \/ left_out b = false
  | Update v => untouched s \/ (o_calc o = true ->
      (some_save = true -> forall l, l < o_n o -> v l = svf s l) /\
      (v (o_n o) = svf s (o_n o) \/ forall i4, dirty s (FBound i4) bound_deps = true))
  | Clear => True
  | Solve h k | Solve_no_calc h k => one_solver sv d h /\
      (some_save = true -> forall junk, snd (run P (no_save o) (Solve h k) (fresh P (sx s) (svf s) junk)) <> None)
  end.
Fixpoint careful_all (reach : bool) (sv : nat) (d : dir) (h : list (@op V)) (s : st) : Prop :=
  match h with
  | [] => True
  | c :: h => careful reach sv d s c /\ careful_all reach sv d h (fst (run P o c s))
  end.
(** Calls that only set up the handle. *)
Definition setup (c : @op V) : Prop := match c with Set_ _ _ _ _ | Update _ | Clear => True | _ => False end.
End Histories.
