(** What each function of the caches hands out when nothing is stored: a function of the inputs.  And the proof that
    with coherent caches this is what it hands out. *)
From Coq Require Import List Bool PeanoNat Lia.
From Verif Require Import CacheModel CacheSpec CacheProofs CacheSteps.
Import ListNotations.
Open Scope nat_scope.

Definition obind {A B} (a : option A) (f : A -> option B) : option B := match a with Some a => f a | None => None end.
Fixpoint mapO {A B} (f : A -> option B) (l : list A) : option (list B) :=
  match l with [] => Some [] | a :: l => obind (f a) (fun b => obind (mapO f l) (fun bs => Some (b :: bs))) end.

Section Ideal.
Context {V : Type} (P : physics V) (o : opts) (x : inp V) (vf : nat -> V).
Notation st := (@st V).
Notation M := (@M V).
Notation n := (o_n o).
Notation ifc := (ifc P o).
Notation ifs := (ifs P o).

Definition i_mus (w : yk) : V :=
  match w with YP => if o_sfi o then quad P else xquad P (x UMUS 0) | Y0 => neg P (x MU_0 0) | YU => x UMUS 0 end.
Definition i_Y (w : yk) (i4 : nat) : V := if o_scalar o then leg P i4 (cdn P i4) (i_mus w) else none P.
Definition i_raw (k : phk) (i4 l : nat) : V :=
  ph_raw P k i4 [x COEF l; t_coef P o x l; t_coef_l P o x l; ifc (vf l); i_Y (side1 k) i4; i_Y (side2 k) i4;
                 i_mus (side1 k); i_mus (side2 k)].
Definition i_sym (k : phk) (i4 l : nat) : V := ph_sym P k (i_raw k i4 l).
Definition i_ph (k : phk) (i4 l : nat) : option V :=
  if ph_bad P k i4 (t_omega P o x l) (i_raw k i4 l) then None else Some (i_sym k i4 l).
Definition i_local (i4 l : nat) : option V :=
  obind (i_ph QQ i4 l) (fun p => Some (loc P i4 [t_omega P o x l; t_omega_l P o x l; p; ifc (vf l); i_mus YP])).
Definition thm (v : V) : V := if o_thermal o then v else none P.
Definition i_layer (sv i4 l : nat) : option V :=
  if thin P i4 (t_omega P o x l) (x COEF l) then
    Some (lay0 P i4 [t_ltau P o x l; t_ltau_l P o x l; ifc (vf l); i_mus YP])
  else
    obind (if o_solar o then i_ph Q0 i4 l else Some (none P)) (fun q => obind (i_local i4 l) (fun r => Some
      (lay P sv i4
        [t_omega P o x l; t_omega_l P o x l; t_ltau P o x l; t_ltau_l P o x l;
         ifs (t_as P o x l); ifs (ifc (t_as_l P o x l)); ifs (t_atran P o x l); ifs (ifc (t_atran_l P o x l));
         ifs (x F_0 0); thm (x LEVELS_B l); thm (x LEVELS_B (S l)); thm (ifc (x LEVELS_B_L l)); thm (ifc (x LEVELS_B_L (S l)));
         x DOUB_D_TAU 0; (if o_pade o then x PADE_PARAMS 0 else none P); (if o_pade o then x UMUS 0 else none P);
         q; r; ifc (vf l); i_mus YP]))).
Definition i_bound (i4 : nat) : V :=
  bnd P i4 [x F_ISO_TOP 0; ifc (x F_ISO_TOP_L 0); x F_ISO_BOT 0; ifc (x F_ISO_BOT_L 0);
            ifs (x MU_0 0); ifs (x F_0 0); ifs (t_btran P o x n); ifs (ifc (t_btran_l P o x n));
            x BRDF 0; ifc (x BRDF_L 0); thm (x SURFACE_B 0); thm (ifc (x SURFACE_B_L 0)); ifc (vf n); x UMUS 0].
Definition i_turn (sv i4 l : nat) : option (list V) :=
  obind (i_layer sv i4 l) (fun v => Some [v; ifs (t_btran P o x l); ifs (ifc (t_btran_l P o x l)); ifc (vf l)]).
Definition i_total (d : dir) (sv i4 : nat) : option V :=
  obind (mapO (i_turn sv i4) (layers o)) (fun ls => Some (tot P d i4 ls [])).
Definition i_TOA (sv i4 : nat) : option V :=
  obind (mapO (i_turn sv i4) (rev (layers o))) (fun ls =>
    Some (tot P Bottom i4 ls [x BRDF 0; ifc (x BRDF_L 0); i_bound i4; ifc (vf n); x UMUS 0; x MU_0 0])).
Definition i_add (sv : nat) (d : dir) (i4 : nat) : option V :=
  obind (match d with Bottom => i_TOA sv i4 | d => i_total d sv i4 end) (fun t =>
    r_add P sv d i4 x vf [t; i_bound i4; ifs (t_btran P o x n); ifs (ifc (t_btran_l P o x n))]).
Definition i_profile : list V :=
  t_utaus P o x ::
  flat_map (fun l => [t_coef P o x l; t_coef_l P o x l; t_omega P o x l; t_omega_l P o x l; t_ltau P o x l; t_ltau_l P o x l;
                      ifs (t_as P o x l); ifs (ifc (t_as_l P o x l)); ifs (t_atran P o x l); ifs (ifc (t_atran_l P o x l))]) (layers o) ++
  flat_map (fun m => [ifs (t_btau P o x m); ifs (ifc (t_btau_l P o x m)); ifs (t_btran P o x m); ifs (ifc (t_btran_l P o x m))]) (seq 0 (S n)).
Definition i_list (b : bool) (m : option (list V)) : option (list V) := if b then m else Some [].
Definition i_phs (k : phk) (i4 : nat) : option (list V) := mapO (i_ph k i4) (layers o).
Definition i_bvp (sv i4 : nat) : option V :=
  let big := negb (small P sv) in
  obind (i_list (big && o_solar o) (i_phs Q0 i4)) (fun q0 =>
  obind (i_list (big && use_qq P sv) (i_phs QQ i4)) (fun qq =>
  obind (i_list (big && o_solar o && o_sfi o && o_umus o) (i_phs U0 i4)) (fun u0 =>
  obind (i_list (big && o_sfi o && o_umus o) (i_phs UQ i4)) (fun uq =>
  obind (i_list (big && use_loc P sv) (mapO (i_local i4) (layers o))) (fun lc =>
    r_bvp P sv i4 x vf (i_profile ++ q0 ++ qq ++ u0 ++ uq ++ lc ++ (if o_two o then [] else [i_bound i4]))))))).
Definition i_single : option V := r_sgl P x vf (i_profile ++ [i_bound 0]).
Definition i_corr : option (list V) :=
  if o_tms o && o_solar o then match r_tms P x vf (i_profile ++ [i_bound 0]) with Some v => Some [v] | None => None end else Some [].
Definition i_fourier (i4 : nat) : option (list V) :=
  if o_tms o && o_solar o && o_conv o then
    obind (i_phs Q0 i4) (fun q0 => obind (i_list (o_sfi o && o_umus o) (i_phs U0 i4)) (fun u0 =>
      match r_cor P i4 x vf (i_profile ++ q0 ++ u0 ++ [i_bound i4]) with Some v => Some [v] | None => None end))
  else Some [].
Definition i_terms (h : how) (k : nat) : option (list (list V)) :=
  match h with
  | Single => obind i_single (fun v => Some [[v]])
  | Bvp sv => mapO (fun i4 => obind (i_bvp sv i4) (fun v => obind (i_fourier i4) (fun c => Some (v :: c)))) (seq 0 k)
  | Add sv d => mapO (fun i4 => obind (i_add sv d i4) (fun v => obind (i_fourier i4) (fun c => Some (v :: c)))) (seq 0 k)
  end.
Definition i_solve (h : how) (k : nat) : option (list (list V)) :=
  obind i_corr (fun c => obind (i_terms h k) (fun ts => Some (c :: ts))).

(** * Coherent saved results *)
Variable (sv0 : nat) (d0 : dir).
Definition cell (f : fid) : cid :=
  match f with
  | FBound i => CBound i | FTotal i => CTotal i | FPh k i l => CPh k i l | FLocal i l => CLocal i l | FLayer i l => CLayer i l
  | _ => CTtau
  end.
Definition entry (f : fid) (s : st) : Prop :=
  match f with
  | FBound i4 => dirty s f bound_deps = false -> sca s (CBound i4) = i_bound i4
  | FPh k i4 l => o_save_phase o = true -> l < n -> dirty s f (ph_deps o k) = false -> sca s (CPh k i4 l) = i_sym k i4 l
  | FLocal i4 l => o_save_local o = true -> l < n -> dirty s f (local_deps o) = false -> i_local i4 l = Some (sca s (CLocal i4 l))
  | FLayer i4 l => o_save_layer o = true -> l < n -> dirty s f (layer_deps o) = false -> i_layer sv0 i4 l = Some (sca s (CLayer i4 l))
  | FTotal i4 => o_save_total o = true -> dirty s f (total_deps o) = false -> i_total d0 sv0 i4 = Some (sca s (CTotal i4))
  | _ => True
  end.
Definition rank (f : fid) : nat :=
  match f with FPh _ _ _ => 0 | FLocal _ _ => 1 | FLayer _ _ => 2 | _ => 3 end.
Definition saved (X : list fid) (s : st) : Prop := forall f, ~ In f X -> entry f s.
Definition inv0 (X : list fid) (s : st) : Prop := core P o s /\ sx s = x /\ svf s = vf /\ saved X s.
Definition inv (X : list fid) (s : st) : Prop := inv0 X s /\ U o s.
Definition good {A} (r : option A) : Prop := some_save o = false \/ r <> None.

Lemma dirty_same (s s' : st) f ds : (forall d, sfl s' f d = sfl s f d) -> dirty s' f ds = dirty s f ds.
Proof. intros F. unfold dirty. induction ds as [|d ds IH]; cbn [existsb]; [reflexivity | now rewrite IH, F]. Qed.
Lemma entry_same f s s' : (forall d, sfl s' f d = sfl s f d) -> sca s' (cell f) = sca s (cell f) -> entry f s -> entry f s'.
Proof.
  intros F C E. destruct f; cbn [entry cell] in *; try exact E; rewrite (dirty_same s s') by exact F; rewrite C; exact E.
Qed.
Lemma entry_keeps f s s' : keeps Tx s s' -> entry f s -> entry f s'.
Proof.
  intros (_ & _ & F & C) E. destruct (ffam f) eqn:K; try (destruct f; try discriminate K; exact E).
  apply (entry_same f s); [intros; now apply F | apply C; destruct f; try discriminate K; reflexivity | exact E].
Qed.
Lemma saved_keeps X s s' : keeps Tx s s' -> saved X s -> saved X s'.
Proof. intros K S f N. eapply entry_keeps; [exact K | now apply S]. Qed.
Lemma saved_more X f s : saved X s -> saved (f :: X) s.
Proof. intros S f' N. apply S. intros I. apply N. now right. Qed.
Lemma cell_inj f f' : ffam f = Tx -> ffam f' = Tx -> cell f = cell f' -> f = f'.
Proof. destruct f, f'; try discriminate; cbn; intros _ _ E; injection E; intros; subst; reflexivity. Qed.
Lemma saved_clear X f ds s : saved X s -> saved (f :: X) (clear f ds s).
Proof.
  intros S f' N. apply (entry_same f' s); [|reflexivity | apply S; intros I; apply N; now right].
  intros d. apply sfl_clear_neq. intros <-. apply N. now left.
Qed.
Lemma saved_put X f v s : ffam f = Tx -> saved (f :: X) s -> saved (f :: X) (put (cell f) v s).
Proof.
  intros E S f' N. assert (NE : f <> f') by (intros <-; apply N; now left). specialize (S f' N).
  destruct (ffam f') eqn:K; try (destruct f'; try discriminate K; exact S).
  apply (entry_same f' s); [reflexivity | | exact S]. apply sca_put_neq. intros Q. apply NE. now apply cell_inj.
Qed.
Lemma saved_join X f s : saved (f :: X) s -> entry f s -> saved X s.
Proof. intros S E f' N. destruct (fid_eqb f f') eqn:K; [apply fid_eqb_eq in K; now subst|]. apply S. intros [->|I]; [now rewrite fid_refl in K | contradiction]. Qed.

Lemma inv_keeps X s s' : keeps Tx s s' -> svf s' = svf s -> core P o s' /\ U o s' -> inv X s -> inv X s'.
Proof.
  intros K W [C' U'] [(C & A & B & S) _]. pose proof K as (XX & _). split; [|exact U'].
  refine (conj C' (conj _ (conj _ _))); [congruence | congruence | now apply (saved_keeps X s)].
Qed.
Lemma inv_opt X l s : inv X s -> inv X (update_opt_props P o l s).
Proof.
  intros I. pose proof I as [(C & _) K]. apply (inv_keeps X s); [apply keeps_opt; discriminate | apply calm_opt | | exact I].
  split; [now apply core_opt | now apply U_opt].
Qed.
Lemma inv_beam X l s : l <= n -> inv X s -> inv X (update_beam_params P o l s) /\ b_rdy o (update_beam_params P o l s) (if l =? n then l else S l).
Proof.
  intros Hl I. pose proof I as [(C & _) K]. destruct (core_beam P o l s C Hl (or_intror K)) as (A & B & R). split; [|exact R].
  apply (inv_keeps X s); [apply keeps_beam; discriminate | apply calm_beam | now split | exact I].
Qed.
Lemma inv_Y X w i4 s : inv X s -> inv X (get_Y P o w i4 s).
Proof.
  intros I. pose proof I as [(C & _) K]. apply (inv_keeps X s); [apply keeps_Y; discriminate | apply calm_Y | | exact I].
  split; [now apply core_Y | now apply U_Y].
Qed.
Lemma inv_wantY X w i4 s : inv X s -> inv X (want_Y P o w i4 s).
Proof. unfold want_Y. destruct (o_scalar o); [apply inv_Y | auto]. Qed.
Lemma inv_clear X f ds s : ffam f = Tx -> inv X s -> inv (f :: X) (clear f ds s).
Proof.
  intros E [(C & A & B & S) K]. split; [|apply U_clear; [congruence | exact K]].
  refine (conj _ (conj A (conj B _))); [now apply core_clear | now apply saved_clear].
Qed.
Lemma inv_put X f v s : ffam f = Tx -> inv (f :: X) s -> inv (f :: X) (put (cell f) v s).
Proof.
  intros E [(C & A & B & S) K]. split; [|exact K].
  refine (conj _ (conj A (conj B _))); [apply core_put; [destruct f; try discriminate E; reflexivity | exact C] | now apply saved_put].
Qed.
Lemma inv_join X f s : inv (f :: X) s -> entry f s -> inv X s.
Proof. intros [(C & A & B & S) K] E. split; [|exact K]. refine (conj C (conj A (conj B _))). now apply (saved_join X f). Qed.
Lemma inv_done X f s : inv (f :: X) s -> (forall s', (forall c, sca s' c = sca s c) -> entry f s') -> inv X s.
Proof. intros I E. apply (inv_join X f); [exact I | apply E; reflexivity]. Qed.

Lemma good_bind {A B} (a : option A) (f : A -> option B) : good (obind a f) -> good a.
Proof. intros [H|H]; [now left | right]. intros ->. now apply H. Qed.
Lemma bind_ok {A B} (Q1 Q2 : st -> Prop) (m : M A) (k : A -> M B) r1 r2 s :
  (good r1 -> Q1 (fst (m s)) /\ snd (m s) = r1) ->
  (forall a s, r1 = Some a -> Q1 s -> good (r2 a) -> Q2 (fst (k a s)) /\ snd (k a s) = r2 a) ->
  (some_save o = false -> forall s, Q1 s -> Q2 s) ->
  good (obind r1 r2) -> Q2 (fst (bind m k s)) /\ snd (bind m k s) = obind r1 r2.
Proof.
  intros Hm Hk HQ G. destruct (Hm (good_bind _ _ G)) as [A1 A2]. unfold bind.
  destruct (m s) as [s1 r]. cbn [fst snd] in *. subst r. destruct r1 as [a|]; cbn [obind] in *; [now apply Hk|].
  split; [|reflexivity]. destruct G as [G|G]; [now apply HQ | now destruct G].
Qed.
Lemma mapM_ok {A B} (Q : st -> Prop) (f : A -> M B) g l s :
  (forall a s, In a l -> Q s -> good (g a) -> Q (fst (f a s)) /\ snd (f a s) = g a) ->
  Q s -> good (mapO g l) -> Q (fst (mapM f l s)) /\ snd (mapM f l s) = mapO g l.
Proof.
  revert s. induction l as [|a l IH]; intros s Hf K G; [now split|]. cbn [mapM mapO] in *.
  apply (bind_ok Q); [intros G1; apply Hf; [now left | assumption..] | | auto | exact G].
  intros b s1 _ K1 G1. apply (bind_ok Q); [| |auto|exact G1].
  - intros G2. apply IH; [intros; apply Hf; [now right | assumption..] | assumption..].
  - intros bs s2 _ K2 _. now split.
Qed.
Lemma ret_ok {A} (Q : st -> Prop) (a : A) s : Q s -> Q (fst (ret a s)) /\ snd (ret a s) = Some a.
Proof. now split. Qed.

(** * Phase functions *)
Lemma keeps_phase_get t k i4 l s : t <> Tx -> keeps t s (fst (phase_get P o k i4 l s)).
Proof.
  intros N. assert (NX : Tx <> t) by congruence. unfold phase_get. cbv zeta.
  assert (KP : forall v (s s' : st), keeps t s s' -> keeps t s (if o_save_phase o then put (CPh k i4 l) v s' else s')).
  { intros v s0 s' K. destruct (o_save_phase o); [|exact K]. eapply keeps_trans; [exact K | now apply keeps_put]. }
  assert (K1 : keeps t s (if o_save_phase o then clear (FPh k i4 l) (ph_deps o k) s else s)).
  { destruct (o_save_phase o); [now apply keeps_clear | apply keeps_refl]. }
  destruct (_ && _); [exact K1|]. destruct (ph_bad _ _ _ _ _); cbn [fst]; auto.
Qed.
Lemma some_save_phase : some_save o = false -> o_save_phase o = false.
Proof. unfold some_save. now destruct (o_save_phase o). Qed.
Lemma some_save_local : some_save o = false -> o_save_local o = false.
Proof. unfold some_save. destruct (o_save_phase o), (o_save_local o); auto. Qed.
Lemma some_save_layer : some_save o = false -> o_save_layer o = false.
Proof. unfold some_save. destruct (o_save_phase o), (o_save_local o), (o_save_layer o), (o_save_total o); auto. Qed.
Lemma some_save_total : some_save o = false -> o_save_total o = false.
Proof. unfold some_save. destruct (o_save_phase o), (o_save_local o), (o_save_layer o), (o_save_total o); auto. Qed.

Definition yr (s : st) (k : phk) (i4 : nat) : Prop := o_scalar o = true -> y_rdy o s (side1 k) i4 /\ y_rdy o s (side2 k) i4.
Lemma eY_ok s w i4 : yI P o s -> sx s = x -> (o_scalar o = true -> y_rdy o s w i4) -> e_Y P o s w i4 = i_Y w i4.
Proof.
  intros I X R. unfold e_Y, i_Y. destruct (o_scalar o); [|reflexivity]. rewrite (y_fresh P o) by auto.
  unfold mus, i_mus. now rewrite X.
Qed.
Lemma mus_ok s w : sx s = x -> mus P o s w = i_mus w.
Proof. intros X. unfold mus, i_mus. now rewrite X. Qed.
Lemma opts_ok s l : core P o s -> sx s = x -> opt_cl o s l -> e_coef o s l = t_coef P o x l /\ e_omega o s l = t_omega P o x l /\
  e_ltau o s l = t_ltau P o x l /\ e_coef_l P o s l = t_coef_l P o x l /\ e_omega_l P o s l = t_omega_l P o x l /\ e_ltau_l P o s l = t_ltau_l P o x l.
Proof. intros C X K. rewrite <- X. apply (opt_fresh P o s l (c_opt _ _ _ C) K). Qed.
Lemma ph_args_ok s k i4 l : core P o s -> sx s = x -> svf s = vf -> opt_cl o s l -> yr s k i4 ->
  ph_raw P k i4 (ph_args P o s k i4 l) = i_raw k i4 l.
Proof.
  intros C X W K R. destruct (opts_ok s l C X K) as (A & _ & _ & B & _ & _).
  unfold ph_args, i_raw. rewrite A, B, X, W, !mus_ok by exact X.
  rewrite !eY_ok; [reflexivity| | exact X | intros Q; now apply R | | exact X | intros Q; now apply R]; apply (c_y _ _ _ C).
Qed.
Lemma ph_get_ok X k i4 l s : l < n -> (forall f, In f X -> 0 < rank f) -> inv X s -> opt_cl o s l -> yr s k i4 ->
  good (i_ph k i4 l) -> inv X (fst (phase_get P o k i4 l s)) /\ snd (phase_get P o k i4 l s) = i_ph k i4 l.
Proof.
  intros Hl HX I K R G. unfold phase_get. cbv zeta.
  assert (NX : ~ In (FPh k i4 l) X) by (intros Q; specialize (HX _ Q); cbn in HX; lia).
  destruct (o_save_phase o) eqn:SV; cbn [andb].
  - destruct G as [G|G]; [apply some_save_phase in G; congruence|].
    assert (GI : i_ph k i4 l = Some (i_sym k i4 l)).
    { unfold i_ph in *. destruct (ph_bad _ _ _ _ _); [now destruct G | reflexivity]. }
    rewrite GI. set (f := FPh k i4 l).
    assert (I1 : inv (f :: X) (clear f (ph_deps o k) s)) by now apply inv_clear.
    destruct (dirty s f (ph_deps o k)) eqn:D; cbn [negb fst snd].
    + set (s1 := clear f (ph_deps o k) s) in *.
      assert (AR : ph_raw P k i4 (ph_args P o s1 k i4 l) = i_raw k i4 l).
      { destruct I as [(C & X1 & W1 & _) _]. change (ph_args P o s1 k i4 l) with (ph_args P o s k i4 l). now apply ph_args_ok. }
      rewrite AR. set (s2 := put (CPh k i4 l) (i_raw k i4 l) s1).
      assert (I2 : inv (f :: X) s2) by (apply (inv_put X f); [reflexivity | exact I1]).
      assert (EO : e_omega o s2 l = t_omega P o x l).
      { destruct I as [(C & X1 & _) _]. change (e_omega o s2 l) with (e_omega o s l). now apply opts_ok. }
      rewrite EO. unfold i_ph in GI. destruct (ph_bad P k i4 _ _); [discriminate|]. cbn [fst snd].
      split; [|reflexivity].
      apply (inv_join X f); [apply (inv_put X f); [reflexivity | exact I2]|].
      cbn [entry f]. intros _ _ _. now rewrite sca_put.
    + destruct I as [(C & X1 & W1 & S) UU]. pose proof (S f NX SV Hl D) as E.
      split; [|now rewrite clear_sca, E].
      apply (inv_join X f); [exact I1|]. intros _ _ _. exact E.
  - destruct I as [(C & X1 & W1 & S) UU]. rewrite ph_args_ok by assumption.
    destruct (opts_ok s l C X1 K) as (_ & EO & _). rewrite EO. unfold i_ph.
    assert (I : inv X s) by (split; [exact (conj C (conj X1 (conj W1 S))) | exact UU]).
    destruct (ph_bad P k i4 _ _); now split.
Qed.
(** Cleanness and calm go along. *)
Definition go (X : list fid) (s0 s : st) : Prop := inv X s /\ calm s0 s.
Lemma go_refl X s : inv X s -> go X s s.
Proof. intros I. split; [exact I | apply calm_refl]. Qed.
Lemma go_act X s0 s (f : st -> st) : inv X (f s) -> calm s (f s) -> go X s0 s -> go X s0 (f s).
Proof. intros I C [_ C0]. split; [exact I | now apply (calm_trans s0 s)]. Qed.
Lemma yr_want k i4 s : core P o s -> yr (want_Y P o (side2 k) i4 (want_Y P o (side1 k) i4 s)) k i4.
Proof.
  intros C SC. unfold want_Y. rewrite SC. split.
  - apply get_Y_rdy_other; [apply cdI_Y; apply (c_y _ _ _ C)|]. apply get_Y_rdy. apply (c_y _ _ _ C).
  - apply get_Y_rdy. apply cdI_Y. apply (c_y _ _ _ C).
Qed.
Lemma calm_wantY w i4 s : calm s (want_Y P o w i4 s).
Proof. unfold want_Y. destruct (o_scalar o); [apply calm_Y | apply calm_refl]. Qed.
Lemma yr_keeps k i4 s s' : keeps Ty s s' -> yr s k i4 -> yr s' k i4.
Proof.
  intros K R SC. destruct (R SC) as [A B].
  assert (Q : forall w, y_rdy o s w i4 -> y_rdy o s' w i4).
  { intros w [D O]. split; [rewrite (dirty_keeps Ty s s') by (assumption || reflexivity); exact D|].
    intros SV. destruct K as (_ & KO & _). rewrite KO by reflexivity. now apply O. }
  split; now apply Q.
Qed.
Lemma calm_phase_get k i4 l s : calm s (fst (phase_get P o k i4 l s)).
Proof. apply (calm_of P o). intros. now apply (pres_phase_get P o). Qed.
Lemma ph_ok X k i4 l s0 s : l < n -> (forall f, In f X -> 0 < rank f) -> go X s0 s -> opt_cl o s l ->
  good (i_ph k i4 l) -> go X s0 (fst (get_phase P o k i4 l s)) /\ snd (get_phase P o k i4 l s) = i_ph k i4 l.
Proof.
  intros Hl HX [I C0] K G. unfold get_phase, act.
  pose proof I as [(C & _) _].
  set (s2 := want_Y P o (side2 k) i4 (want_Y P o (side1 k) i4 s)).
  assert (I2 : inv X s2) by (unfold s2; now do 2 apply inv_wantY).
  assert (C2 : calm s s2) by (eapply calm_trans; apply calm_wantY).
  assert (R2 : yr s2 k i4) by now apply yr_want. clearbody s2.
  destruct (ph_get_ok X k i4 l s2 Hl HX I2 (opt_cl_calm o s s2 l C2 K) R2 G) as [A B].
  split; [|exact B]. split; [exact A|]. eapply calm_trans; [exact C0|]. eapply calm_trans; [exact C2 | apply calm_phase_get].
Qed.
Lemma phs_ok X k i4 s0 s : (forall f, In f X -> 0 < rank f) -> go X s0 s -> (forall l, l < n -> opt_cl o s l) ->
  good (i_phs k i4) -> go X s0 (fst (get_phase_all P o k i4 s)) /\ snd (get_phase_all P o k i4 s) = i_phs k i4.
Proof.
  intros HX [I C0] K G. unfold get_phase_all, act, i_phs in *.
  pose proof I as [(C & _) _].
  set (s2 := want_Y P o (side2 k) i4 (want_Y P o (side1 k) i4 s)).
  assert (I2 : inv X s2) by (unfold s2; now do 2 apply inv_wantY).
  assert (C2 : calm s s2) by (eapply calm_trans; apply calm_wantY).
  assert (R2 : yr s2 k i4) by now apply yr_want. clearbody s2.
  destruct (mapM_ok (fun s' => go X s2 s' /\ yr s' k i4) (phase_get P o k i4) (i_ph k i4) (layers o) s2) as [[[A B] _] D].
  - intros l s' IL [[I' C'] R'] G'. apply in_layers in IL.
    destruct (ph_get_ok X k i4 l s' IL HX I' (opt_cl_calm o s s' l (calm_trans _ _ _ C2 C') (K l IL)) R' G') as [A B].
    split; [|exact B]. split.
    + split; [exact A|]. eapply calm_trans; [exact C' | apply calm_phase_get].
    + eapply yr_keeps; [apply keeps_phase_get; discriminate | exact R'].
  - split; [now apply go_refl | exact R2].
  - exact G.
  - split; [|exact D]. split; [exact A|]. eapply calm_trans; [exact C0|]. eapply calm_trans; eassumption.
Qed.

(** * Local matrices *)
Lemma rank_more X f r : (forall g, In g X -> r < rank g) -> r < rank f -> forall g, In g (f :: X) -> r < rank g.
Proof. intros H Hf g [<-|I]; [exact Hf | now apply H]. Qed.
Lemma rank_le X r r' : r <= r' -> (forall g, In g X -> r' < rank g) -> forall g, In g X -> r < rank g.
Proof. intros L H g I. specialize (H g I). lia. Qed.
Lemma local_ok X i4 l s0 s : l < n -> (forall f, In f X -> 1 < rank f) -> go X s0 s ->
  good (i_local i4 l) -> go X s0 (fst (get_local P o i4 l s)) /\ snd (get_local P o i4 l s) = i_local i4 l.
Proof.
  intros Hl HX [I C0] G. unfold get_local. cbv zeta.
  set (f := FLocal i4 l).
  assert (NX : ~ In f X) by (intros Q; specialize (HX _ Q); cbn in HX; lia).
  set (X' := if o_save_local o then f :: X else X).
  set (s1 := if o_save_local o then clear f (local_deps o) s else s).
  assert (I1 : inv X' s1) by (unfold X', s1; destruct (o_save_local o); [now apply inv_clear | exact I]).
  assert (C1 : calm s0 s1).
  { unfold s1. destruct (o_save_local o); [|exact C0]. eapply calm_trans; [exact C0 | apply calm_clear]. }
  destruct (o_save_local o && negb (dirty s f (local_deps o))) eqn:E.
  - apply andb_true_iff in E. destruct E as [SV D]. apply negb_true_iff in D.
    destruct I as [(C & X1 & W1 & S) UU]. pose proof (S f NX SV Hl D) as EE. cbn [fst snd].
    assert (SC : sca s1 (CLocal i4 l) = sca s (CLocal i4 l)) by (unfold s1; now rewrite SV).
    split; [|rewrite SC; now symmetry]. split; [|exact C1].
    unfold X' in I1. rewrite SV in I1. apply (inv_join X f); [exact I1|]. intros _ _ _. now rewrite SC.
  - assert (HX' : forall g, In g X' -> 0 < rank g).
    { unfold X'. destruct (o_save_local o); [apply rank_more; [apply (rank_le X 0 1); [lia | exact HX] | cbn; lia] | apply (rank_le X 0 1); [lia | exact HX]]. }
    unfold i_local.
    apply (bind_ok (fun s' => go X' s0 s' /\ opt_cl o s' l)); [| | |exact G].
    + intros G1. unfold act. set (s2 := update_opt_props P o l s1).
      assert (I2 : inv X' s2) by now apply inv_opt.
      assert (C2 : calm s0 s2) by (eapply calm_trans; [exact C1 | apply calm_opt]).
      assert (K2 : opt_cl o s2 l) by apply opt_cl_opt.
      destruct (ph_ok X' QQ i4 l s2 s2 Hl HX' (go_refl _ _ I2) K2 G1) as [[A A'] B].
      split; [|exact B]. split; [split; [exact A | now apply (calm_trans s0 s2)]|].
      now apply (opt_cl_calm o s2).
    + intros p s' PP ([I' C'] & K') _. cbn [fst snd].
      assert (EV : loc P i4 [e_omega o s' l; e_omega_l P o s' l; p; ifc (svf s' l); mus P o s' YP] =
                   loc P i4 [t_omega P o x l; t_omega_l P o x l; p; ifc (vf l); i_mus YP]).
      { destruct I' as [(C & X1 & W1 & _) _]. destruct (opts_ok s' l C X1 K') as (_ & A & _ & _ & B & _).
        now rewrite A, B, W1, mus_ok. }
      rewrite EV. split; [|reflexivity]. unfold X' in I'. destruct (o_save_local o) eqn:SV; [|split; assumption].
      split; [|eapply calm_trans; [exact C' | apply calm_put]].
      apply (inv_join X f); [apply (inv_put X f); [reflexivity | exact I']|].
      cbn [entry f]. intros _ _ _. rewrite sca_put. unfold i_local. now rewrite PP.
    + intros NS s' ([I' C'] & _). unfold X' in I'. rewrite (some_save_local NS) in I'. now split.
Qed.

(** * Layers *)
Definition same_solver (sv : nat) : Prop := big_save o = true -> sv = sv0.
Lemma save_big_layer : o_save_layer o = true -> big_save o = true.
Proof. unfold big_save. now intros ->. Qed.
Lemma save_big_total : o_save_total o = true -> big_save o = true.
Proof. unfold big_save. intros ->. apply orb_true_r. Qed.
Lemma slab_fresh s l : core P o s -> sx s = x -> l < n -> b_rdy o s (S l) ->
  ifs (sca s (CAs l)) = ifs (t_as P o x l) /\ ifs (ifc (sca s (CAsL l))) = ifs (ifc (t_as_l P o x l)) /\
  ifs (sca s (CAtran l)) = ifs (t_atran P o x l) /\ ifs (ifc (sca s (CAtranL l))) = ifs (ifc (t_atran_l P o x l)).
Proof.
  intros C X Hl R. unfold CacheModel.ifs, CacheModel.ifc. destruct (o_solar o) eqn:SO; [|now repeat split].
  destruct (b_fresh P o s (S l) C SO Hl R) as [_ D]. destruct (D l (Nat.lt_succ_diag_r l)) as (A & B & E). rewrite X in *.
  destruct (o_calc o); [destruct (E eq_refl) as [E1 E2]|]; repeat split; assumption.
Qed.
Lemma level_fresh s m q : core P o s -> sx s = x -> q <= n -> m <= q -> b_rdy o s q ->
  ifs (sca s (CBtau m)) = ifs (t_btau P o x m) /\ ifs (ifc (sca s (CBtauL m))) = ifs (ifc (t_btau_l P o x m)) /\
  ifs (sca s (CBtran m)) = ifs (t_btran P o x m) /\ ifs (ifc (sca s (CBtranL m))) = ifs (ifc (t_btran_l P o x m)).
Proof.
  intros C X Hq Hm R. unfold CacheModel.ifs, CacheModel.ifc. destruct (o_solar o) eqn:SO; [|now repeat split].
  destruct (b_fresh P o s q C SO Hq R) as [D _]. destruct (D m Hm) as (A & B & E). rewrite X in *.
  destruct (o_calc o); [destruct (E eq_refl) as [E1 E2]|]; repeat split; assumption.
Qed.
Lemma layer_ok X sv i4 l s0 s : same_solver sv -> l < n -> (forall f, In f X -> 2 < rank f) -> go X s0 s ->
  good (i_layer sv i4 l) -> go X s0 (fst (get_layer P o sv i4 l s)) /\ snd (get_layer P o sv i4 l s) = i_layer sv i4 l.
Proof.
  intros HS Hl HX [I C0] G. unfold get_layer. cbv zeta.
  set (f := FLayer i4 l).
  assert (NX : ~ In f X) by (intros Q; specialize (HX _ Q); cbn in HX; lia).
  set (X' := if o_save_layer o then f :: X else X).
  set (s1 := if o_save_layer o then clear f (layer_deps o) s else s).
  assert (I1 : inv X' s1) by (unfold X', s1; destruct (o_save_layer o); [now apply inv_clear | exact I]).
  assert (C1 : calm s0 s1).
  { unfold s1. destruct (o_save_layer o); [|exact C0]. eapply calm_trans; [exact C0 | apply calm_clear]. }
  destruct (o_save_layer o && negb (dirty s f (layer_deps o))) eqn:E.
  - apply andb_true_iff in E. destruct E as [SV D]. apply negb_true_iff in D.
    destruct I as [(C & X1 & W1 & S) UU]. pose proof (S f NX SV Hl D) as EE. cbn [fst snd].
    assert (SC : sca s1 (CLayer i4 l) = sca s (CLayer i4 l)) by (unfold s1; now rewrite SV).
    rewrite (HS (save_big_layer SV)).
    split; [|rewrite SC; now symmetry]. split; [|exact C1].
    unfold X' in I1. rewrite SV in I1. apply (inv_join X f); [exact I1|]. intros _ _ _. now rewrite SC.
  - assert (HX' : forall g, In g X' -> 1 < rank g).
    { unfold X'. destruct (o_save_layer o); [apply rank_more; [apply (rank_le X 1 2); [lia | exact HX] | cbn; lia] | apply (rank_le X 1 2); [lia | exact HX]]. }
    set (s2 := update_opt_props P o l s1).
    assert (I2 : inv X' s2) by now apply inv_opt.
    assert (C2 : calm s0 s2) by (eapply calm_trans; [exact C1 | apply calm_opt]).
    assert (K2 : opt_cl o s2 l) by apply opt_cl_opt. clearbody s2.
    (* storing the value *)
    assert (KEEP : forall v s', go X' s0 s' -> i_layer sv i4 l = Some v ->
              go X s0 (if o_save_layer o then put (CLayer i4 l) v s' else s')).
    { intros v s' [I' C'] EV. unfold X' in I'. destruct (o_save_layer o) eqn:SV; [|now split].
      split; [|eapply calm_trans; [exact C' | apply calm_put]].
      apply (inv_join X f); [apply (inv_put X f); [reflexivity | exact I']|].
      cbn [entry f]. intros _ _ _. rewrite sca_put. now rewrite <- (HS (save_big_layer SV)). }
    pose proof I2 as [(CC & XX & WW & _) _].
    destruct (opts_ok s2 l CC XX K2) as (_ & EO & ET & _ & EOL & ETL).
    replace (sx s2 COEF l) with (x COEF l) by now rewrite XX. rewrite EO.
    unfold i_layer in G |- *. destruct (thin P i4 (t_omega P o x l) (x COEF l)) eqn:TH.
    + rewrite ET, ETL, WW, mus_ok by exact XX. cbn [fst snd]. split; [|reflexivity].
      apply KEEP; [now split|]. unfold i_layer. now rewrite TH.
    + unfold act. set (s3 := update_beam_params P o l s2).
      destruct (inv_beam X' l s2 ltac:(lia) I2) as [I3 R3]. fold s3 in I3, R3.
      replace (l =? n) with false in R3 by (symmetry; apply Nat.eqb_neq; lia).
      assert (C23 : calm s2 s3) by apply calm_beam.
      assert (K3 : opt_cl o s3 l) by now apply (opt_cl_calm o s2). clearbody s3.
      assert (HX0 : forall g, In g X' -> 0 < rank g) by (apply (rank_le X' 0 1); [lia | exact HX']).
      assert (W : some_save o = false -> forall s, go X' s3 s -> go X s0 s).
      { intros NS s5 [I5 C5]. unfold X' in I5. rewrite (some_save_layer NS) in I5. split; [exact I5|].
        eapply calm_trans; [exact C2|]. now apply (calm_trans s2 s3). }
      apply (bind_ok (go X' s3)); [| | exact W |exact G].
      * intros G1. destruct (o_solar o) eqn:SO.
        -- now apply (ph_ok X' Q0 i4 l s3 s3 Hl HX0 (go_refl _ _ I3) K3).
        -- split; [now apply go_refl | reflexivity].
      * intros q s4 EQ G4 GG.
        apply (bind_ok (go X' s3)); [| | exact W |exact GG].
        -- intros G1. now apply local_ok.
        -- intros r s5 ER G5 _. cbn [fst snd]. destruct G5 as [I5 C5].
           pose proof I5 as [(C5' & X5 & W5 & _) _].
           assert (K5 : opt_cl o s5 l) by now apply (opt_cl_calm o s3).
           assert (R5 : b_rdy o s5 (S l)) by now apply (b_rdy_calm o s3).
           destruct (opts_ok s5 l C5' X5 K5) as (_ & A1 & A2 & _ & A3 & A4).
           destruct (slab_fresh s5 l C5' X5 Hl R5) as (B1 & B2 & B3 & B4).
           unfold thm. rewrite A1, A2, A3, A4, B1, B2, B3, B4, mus_ok, W5, X5 by exact X5.
           split; [|reflexivity]. apply KEEP.
           ++ split; [exact I5|]. eapply calm_trans; [exact C2|]. now apply (calm_trans s2 s3).
           ++ unfold i_layer. rewrite TH, EQ. cbn [obind]. rewrite ER. reflexivity.
Qed.

(** * Boundary sources *)
Lemma bound_ok X i4 s : inv0 X s -> ~ In (FBound i4) X ->
  inv X (get_bound P o i4 s) /\ b_rdy o (get_bound P o i4 s) n /\ dirty (get_bound P o i4 s) (FBound i4) bound_deps = false.
Proof.
  intros (C & X0 & W0 & S) NX. unfold get_bound. cbv zeta.
  destruct (core_beam_all P o s C) as (A & B & R). unfold update_beam_params_all in *.
  assert (X1 : sx (update_beam_params P o n s) = x) by (rewrite <- X0; apply calm_beam).
  assert (W1 : svf (update_beam_params P o n s) = vf) by (rewrite <- W0; apply calm_beam).
  assert (S1 : saved X (update_beam_params P o n s)) by (apply (saved_keeps X s); [apply keeps_beam; discriminate | exact S]).
  set (s1 := update_beam_params P o n s) in *. clearbody s1.
  destruct (dirty s1 (FBound i4) bound_deps) eqn:D.
  - set (s2 := clear (FBound i4) bound_deps s1).
    assert (I1 : inv X s1) by (split; [exact (conj A (conj X1 (conj W1 S1))) | exact B]).
    assert (I2 : inv (FBound i4 :: X) s2) by now apply inv_clear.
    destruct (level_fresh s1 n n A X1 (Nat.le_refl _) (Nat.le_refl _) R) as (_ & _ & E3 & E4).
    refine (conj _ (conj _ _)).
    + apply (inv_join X (FBound i4)); [apply (inv_put X (FBound i4)); [reflexivity | exact I2]|].
      cbn [entry]. intros _. rewrite sca_put. unfold i_bound, thm.
      change (sx s2) with (sx s1). change (svf s2) with (svf s1). change (sca s2) with (sca s1).
      rewrite E3, E4, X1, W1. reflexivity.
    + apply (b_rdy_calm o s1); [|exact R]. eapply calm_trans; [apply calm_clear | apply calm_put].
    + apply dirty_clear.
  - refine (conj _ (conj R D)). split; [exact (conj A (conj X1 (conj W1 S1))) | exact B].
Qed.
Lemma bound_value X i4 s : inv X s -> ~ In (FBound i4) X -> dirty s (FBound i4) bound_deps = false -> sca s (CBound i4) = i_bound i4.
Proof. intros [(_ & _ & _ & S) _] N D. exact (S _ N D). Qed.

(** * Adding *)
Lemma turn_ok X sv i4 l s0 s : same_solver sv -> l < n -> (forall f, In f X -> 2 < rank f) -> go X s0 s ->
  good (i_turn sv i4 l) -> go X s0 (fst (add_turn P o sv i4 l s)) /\ snd (add_turn P o sv i4 l s) = i_turn sv i4 l.
Proof.
  intros HS Hl HX G0 G. unfold add_turn, i_turn in *.
  apply (bind_ok (go X s0)); [intros G1; now apply layer_ok | | auto | exact G].
  intros v s1 _ [I1 C1] _. cbv zeta. cbn [fst snd].
  destruct (inv_beam X l s1 ltac:(lia) I1) as [I2 R2].
  replace (l =? n) with false in R2 by (symmetry; apply Nat.eqb_neq; lia).
  assert (C2 : calm s0 (update_beam_params P o l s1)) by (eapply calm_trans; [exact C1 | apply calm_beam]).
  set (s2 := update_beam_params P o l s1) in *. clearbody s2.
  split; [now split|]. pose proof I2 as [(C & X2 & W2 & _) _].
  destruct (level_fresh s2 l (S l) C X2 Hl (Nat.le_succ_diag_r _) R2) as (_ & _ & E3 & E4). now rewrite E3, E4, W2.
Qed.
Definition same_dir (d : dir) : Prop := big_save o = true -> d = d0.
Lemma total_ok X d sv i4 s0 s : same_solver sv -> same_dir d -> (forall f, In f X -> 3 < rank f) -> go X s0 s ->
  good (i_total d sv i4) -> go X s0 (fst (get_total P o d sv i4 s)) /\ snd (get_total P o d sv i4 s) = i_total d sv i4.
Proof.
  intros HS HD HX [I C0] G. unfold get_total. cbv zeta.
  set (f := FTotal i4).
  assert (NX : ~ In f X) by (intros Q; specialize (HX _ Q); cbn in HX; lia).
  set (X' := if o_save_total o then f :: X else X).
  set (s1 := if o_save_total o then clear f (total_deps o) s else s).
  assert (I1 : inv X' s1) by (unfold X', s1; destruct (o_save_total o); [now apply inv_clear | exact I]).
  assert (C1 : calm s0 s1).
  { unfold s1. destruct (o_save_total o); [|exact C0]. eapply calm_trans; [exact C0 | apply calm_clear]. }
  destruct (o_save_total o && negb (dirty s f (total_deps o))) eqn:E.
  - apply andb_true_iff in E. destruct E as [SV D]. apply negb_true_iff in D.
    destruct I as [(C & X1 & W1 & S) UU]. pose proof (S f NX SV D) as EE. cbn [fst snd].
    assert (SC : sca s1 (CTotal i4) = sca s (CTotal i4)) by (unfold s1; now rewrite SV).
    rewrite (HS (save_big_total SV)), (HD (save_big_total SV)).
    split; [|rewrite SC; now symmetry]. split; [|exact C1].
    unfold X' in I1. rewrite SV in I1. apply (inv_join X f); [exact I1|]. intros _ _. now rewrite SC.
  - assert (HX' : forall g, In g X' -> 2 < rank g).
    { unfold X'. destruct (o_save_total o); [apply rank_more; [apply (rank_le X 2 3); [lia | exact HX] | cbn; lia] | apply (rank_le X 2 3); [lia | exact HX]]. }
    unfold i_total in *. apply (bind_ok (go X' s0)); [| | |exact G].
    + intros G1. apply mapM_ok; [|now split | exact G1].
      intros l s' IL G' GL. apply turn_ok; [exact HS | now apply (in_layers o) | exact HX' | exact G' | exact GL].
    + intros ls s2 EL [I2 C2] _. cbn [fst snd]. split; [|reflexivity].
      unfold X' in I2. destruct (o_save_total o) eqn:SV; [|now split].
      split; [|eapply calm_trans; [exact C2 | apply calm_put]].
      apply (inv_join X f); [apply (inv_put X f); [reflexivity | exact I2]|].
      cbn [entry f]. intros _ _. rewrite sca_put. rewrite <- (HS (save_big_total SV)), <- (HD (save_big_total SV)).
      unfold i_total. now rewrite EL.
    + intros NS s2 [I2 C2]. unfold X' in I2. rewrite (some_save_total NS) in I2. now split.
Qed.
Lemma TOA_ok sv i4 s0 s : same_solver sv -> go [] s0 s -> dirty s (FBound i4) bound_deps = false ->
  good (i_TOA sv i4) -> go [] s0 (fst (get_total_TOA P o sv i4 s)) /\ snd (get_total_TOA P o sv i4 s) = i_TOA sv i4.
Proof.
  intros HS [I C] D G. unfold get_total_TOA, i_TOA in *.
  assert (FS : forall s', go [] s s' -> go [] s0 s') by (intros s' [A B]; split; [exact A | now apply (calm_trans s0 s)]).
  apply (bind_ok (go [] s)); [| | intros _ s' K; now apply FS | exact G].
  - intros G1. apply mapM_ok; [|now apply go_refl | exact G1].
    intros l s' IL G' GL. apply turn_ok; [exact HS | apply (in_layers o); now apply in_rev | intros f [] | exact G' | exact GL].
  - intros ls s' _ K _. cbn [fst snd]. split; [now apply FS|]. destruct K as [I' C'].
    rewrite (bound_value [] i4 s' I' ltac:(intros []) (calm_clean s s' _ _ C' D)).
    destruct I' as [(_ & X' & W' & _) _]. now rewrite X', W'.
Qed.
Lemma inv_inv0 X s : inv X s -> inv0 X s.
Proof. now intros [A _]. Qed.
Definition dir_ok (d : dir) : Prop := d = Bottom \/ same_dir d.
Lemma add_ok sv d i4 s : same_solver sv -> dir_ok d -> inv0 [] s -> (d = Both -> U o s) ->
  good (i_add sv d i4) -> inv [] (fst (get_add P o sv d i4 s)) /\ snd (get_add P o sv d i4 s) = i_add sv d i4.
Proof.
  intros HS HD I HU G.
  assert (FIN : forall s', inv [] s' -> b_rdy o s' n -> dirty s' (FBound i4) bound_deps = false -> forall t,
    r_add P sv d i4 (sx s') (svf s') [t; sca s' (CBound i4); ifs (sca s' (CBtran n)); ifs (ifc (sca s' (CBtranL n)))] =
    r_add P sv d i4 x vf [t; i_bound i4; ifs (t_btran P o x n); ifs (ifc (t_btran_l P o x n))]).
  { intros s' I' R' D' t. rewrite (bound_value [] i4 s' I' ltac:(intros []) D').
    pose proof I' as [(C & X' & W' & _) _].
    destruct (level_fresh s' n n C X' (Nat.le_refl _) (Nat.le_refl _) R') as (_ & _ & E3 & E4). now rewrite E3, E4, X', W'. }
  destruct d; cbn [get_add]; unfold i_add in *.
  - assert (HB : same_dir Both) by (destruct HD as [HD|HD]; [discriminate | exact HD]).
    apply (bind_ok (inv [])); [| | auto | exact G].
    + intros G1. destruct (total_ok [] Both sv i4 s s HS HB ltac:(intros f []) (go_refl _ _ (conj I (HU eq_refl))) G1) as [[A _] B].
      now split.
    + intros t s1 _ I1 _. cbv zeta. cbn [fst snd]. destruct (bound_ok [] i4 s1 (inv_inv0 _ _ I1) ltac:(intros [])) as (A & R & D).
      split; [exact A | now apply FIN].
  - assert (HB : same_dir Top) by (destruct HD as [HD|HD]; [discriminate | exact HD]).
    unfold act. destruct (bound_ok [] i4 s I ltac:(intros [])) as (A & R & D).
    set (s1 := get_bound P o i4 s) in *. clearbody s1.
    apply (bind_ok (go [] s1)); [| | intros _ s' [K _]; exact K | exact G].
    + intros G1. apply (total_ok [] Top sv i4 s1 s1 HS HB ltac:(intros f []) (go_refl _ _ A) G1).
    + intros t s2 _ [I2 C2] _. cbn [fst snd]. split; [exact I2|].
      apply FIN; [exact I2 | now apply (b_rdy_calm o s1) | now apply (calm_clean s1)].
  - unfold act. destruct (bound_ok [] i4 s I ltac:(intros [])) as (A & R & D).
    set (s1 := get_bound P o i4 s) in *. clearbody s1.
    apply (bind_ok (go [] s1)); [| | intros _ s' [K _]; exact K | exact G].
    + intros G1. apply (TOA_ok sv i4 s1 s1 HS (go_refl _ _ A) D G1).
    + intros t s2 _ [I2 C2] _. cbn [fst snd]. split; [exact I2|].
      apply FIN; [exact I2 | now apply (b_rdy_calm o s1) | now apply (calm_clean s1)].
Qed.

(** * The whole profile *)
Definition ready (s : st) : Prop := utaus_cl o s /\ (forall l, l < n -> opt_cl o s l) /\ b_rdy o s n.
Lemma ready_calm s s' : calm s s' -> ready s -> ready s'.
Proof.
  intros C (A & B & D). refine (conj _ (conj _ _)); [now apply (utaus_cl_calm o s) | | now apply (b_rdy_calm o s)].
  intros l Hl. apply (opt_cl_calm o s); auto.
Qed.
Lemma flat_map_ext_in {A B} (f g : A -> list B) l : (forall a, In a l -> f a = g a) -> flat_map f l = flat_map g l.
Proof.
  intros H. induction l as [|a l IH]; [reflexivity|]. cbn. rewrite H by now left. f_equal. apply IH. intros; apply H; now right.
Qed.
Lemma profile_ok s : core P o s -> sx s = x -> ready s -> profile P o s = i_profile.
Proof.
  intros C X (A & B & R). unfold profile, i_profile. f_equal; [rewrite (utaus_fresh P o s (c_utau _ _ _ C) A); now rewrite X|].
  f_equal; apply flat_map_ext_in; intros l I.
  - apply (in_layers o) in I. destruct (opts_ok s l C X (B l I)) as (E1 & E2 & E3 & E4 & E5 & E6).
    assert (R' : b_rdy o s (S l)) by (intros SO j Hj; apply R; [exact SO | lia]).
    destruct (slab_fresh s l C X I R') as (F1 & F2 & F3 & F4).
    now rewrite E1, E2, E3, E4, E5, E6, F1, F2, F3, F4.
  - apply in_seq in I. destruct (level_fresh s l n C X (Nat.le_refl _) ltac:(lia) R) as (F1 & F2 & F3 & F4).
    now rewrite F1, F2, F3, F4.
Qed.
Lemma calm_opt_all s : calm s (update_opt_props_all P o s).
Proof. unfold update_opt_props_all. apply calm_onto. intros; apply calm_opt. Qed.
Lemma opt_all_cl s l : l < n -> opt_cl o (update_opt_props_all P o s) l.
Proof.
  intros Hl. unfold update_opt_props_all. assert (I : In l (layers o)) by (apply in_seq; lia).
  revert s. induction (layers o) as [|i r IH]; intros s; [destruct I|]. cbn [onto fold_left].
  destruct I as [->|I].
  - apply (opt_cl_calm o (update_opt_props P o l s)); [apply (calm_onto (update_opt_props P o)); intros; apply calm_opt | apply opt_cl_opt].
  - now apply IH.
Qed.
Lemma keeps_opt_all t s : t <> To -> keeps t s (update_opt_props_all P o s).
Proof. intros N. unfold update_opt_props_all. apply keeps_onto. intros. now apply keeps_opt. Qed.
Lemma opt_beam_ok s : inv0 [] s ->
  let s' := update_beam_params_all P o (update_opt_props_all P o s) in
  inv [] s' /\ calm s s' /\ (forall l, l < n -> opt_cl o s' l) /\ b_rdy o s' n.
Proof.
  intros (C & X0 & W0 & S). cbv zeta.
  assert (C1 := core_opt_all P o s C). assert (M1 := calm_opt_all s). assert (K1 := opt_all_cl s).
  assert (S1 : saved [] (update_opt_props_all P o s)) by (apply (saved_keeps [] s); [apply keeps_opt_all; discriminate | exact S]).
  set (s1 := update_opt_props_all P o s) in *. clearbody s1.
  destruct (core_beam_all P o s1 C1) as (A & B & R).
  assert (M2 : calm s1 (update_beam_params_all P o s1)) by apply calm_beam.
  assert (S2 : saved [] (update_beam_params_all P o s1)) by (apply (saved_keeps [] s1); [apply keeps_beam; discriminate | exact S1]).
  set (s2 := update_beam_params_all P o s1) in *. clearbody s2.
  assert (M : calm s s2) by now apply (calm_trans s s1).
  refine (conj _ (conj M (conj _ R))).
  - split; [|exact B]. refine (conj A (conj _ (conj _ S2))); destruct M as (E1 & E2 & _); congruence.
  - intros l Hl. apply (opt_cl_calm o s1); auto.
Qed.
Lemma refresh_ok s : inv0 [] s -> inv [] (refresh P o s) /\ ready (refresh P o s) /\ calm s (refresh P o s).
Proof.
  intros (C & X0 & W0 & S). unfold refresh.
  assert (C1 := core_utaus P o s C). assert (M1 := calm_utaus P o s). assert (K1 := utaus_cl_utaus P o s).
  assert (S1 : saved [] (update_utaus P o s)) by (apply (saved_keeps [] s); [apply keeps_utaus; discriminate | exact S]).
  set (s1 := update_utaus P o s) in *. clearbody s1.
  assert (I1 : inv0 [] s1) by (refine (conj C1 (conj _ (conj _ S1))); destruct M1 as (E1 & E2 & _); congruence).
  destruct (opt_beam_ok s1 I1) as (I2 & M2 & K2 & R2).
  refine (conj I2 (conj (conj _ (conj K2 R2)) (calm_trans _ _ _ M1 M2))). now apply (utaus_cl_calm o s1).
Qed.
Lemma list_ok b (m : M (list V)) r s0 s :
  (good r -> go [] s0 (fst (m s)) /\ snd (m s) = r) -> go [] s0 s ->
  good (i_list b r) -> go [] s0 (fst (opt_list b m s)) /\ snd (opt_list b m s) = i_list b r.
Proof. intros Hm K G. destruct b; [now apply Hm | now split]. Qed.
Lemma phs_go k i4 s0 s : ready s0 -> go [] s0 s ->
  good (i_phs k i4) -> go [] s0 (fst (get_phase_all P o k i4 s)) /\ snd (get_phase_all P o k i4 s) = i_phs k i4.
Proof.
  intros R G. apply phs_ok; [intros f [] | exact G|]. intros l Hl. destruct G as [_ C]. apply (opt_cl_calm o s0 s l C). now apply R.
Qed.
Definition invr (s : st) : Prop := inv [] s /\ ready s.
Lemma bvp_ok sv i4 s : inv0 [] s ->
  good (i_bvp sv i4) -> invr (fst (get_bvp P o sv i4 s)) /\ snd (get_bvp P o sv i4 s) = i_bvp sv i4.
Proof.
  intros I G. unfold get_bvp, act. cbv zeta. destruct (refresh_ok s I) as (A & R & _).
  set (s1 := refresh P o s) in *. clearbody s1. unfold i_bvp in *.
  assert (W : some_save o = false -> forall s', go [] s1 s' -> invr s').
  { intros _ s' [K C]. split; [exact K | now apply (ready_calm s1)]. }
  apply (bind_ok (go [] s1) invr); [| | exact W | exact G].
  { intros G1. apply list_ok; [intros; now apply phs_go | now apply go_refl | exact G1]. }
  intros q0 s2 _ K2 G2. apply (bind_ok (go [] s1) invr); [| | exact W | exact G2].
  { intros G1. apply list_ok; [intros; now apply phs_go | exact K2 | exact G1]. }
  intros qq s3 _ K3 G3. apply (bind_ok (go [] s1) invr); [| | exact W | exact G3].
  { intros G1. apply list_ok; [intros; now apply phs_go | exact K3 | exact G1]. }
  intros u0 s4 _ K4 G4. apply (bind_ok (go [] s1) invr); [| | exact W | exact G4].
  { intros G1. apply list_ok; [intros; now apply phs_go | exact K4 | exact G1]. }
  intros uq s5 _ K5 G5. apply (bind_ok (go [] s1) invr); [| | exact W | exact G5].
  { intros G1. apply list_ok; [|exact K5 | exact G1]. intros G6. apply mapM_ok; [|exact K5 | exact G6].
    intros l s' IL K' GL. apply local_ok; [now apply (in_layers o) | intros f [] | exact K' | exact GL]. }
  intros lc s6 _ [I6 C6] _. cbn [fst snd].
  assert (R6 : ready s6) by now apply (ready_calm s1).
  destruct (o_two o) eqn:T2.
  - split; [now split|]. destruct I6 as [(CC & X6 & W6 & _) _]. now rewrite profile_ok, X6, W6.
  - destruct (bound_ok [] i4 s6 (inv_inv0 _ _ I6) ltac:(intros [])) as (A7 & R7 & D7).
    assert (C7 : calm s6 (get_bound P o i4 s6)).
    { apply (j_bound P o (calm s6) (stable_calm P o s6)). apply calm_refl. }
    assert (RR : ready (get_bound P o i4 s6)) by now apply (ready_calm s6).
    split; [now split|]. rewrite (bound_value [] i4 _ A7 ltac:(intros []) D7).
    destruct A7 as [(CC & X7 & W7 & _) _]. now rewrite profile_ok, X7, W7.
Qed.
Lemma calm_bound i4 s : calm s (get_bound P o i4 s).
Proof. apply (j_bound P o (calm s) (stable_calm P o s)). apply calm_refl. Qed.
Lemma full_ok i4 s : inv0 [] s -> ready s ->
  inv [] (get_bound P o i4 s) /\ ready (get_bound P o i4 s) /\ profile P o (get_bound P o i4 s) = i_profile /\
  sca (get_bound P o i4 s) (CBound i4) = i_bound i4.
Proof.
  intros I R. destruct (bound_ok [] i4 s I ltac:(intros [])) as (A & B & D).
  assert (RR : ready (get_bound P o i4 s)) by (apply (ready_calm s); [apply calm_bound | exact R]).
  refine (conj A (conj RR (conj _ _))).
  - destruct A as [(CC & X7 & W7 & _) _]. now apply profile_ok.
  - now apply (bound_value []).
Qed.
Lemma single_ok s : inv0 [] s -> inv [] (fst (get_single P o s)) /\ snd (get_single P o s) = i_single.
Proof.
  intros I. unfold get_single, act, i_single. destruct (refresh_ok s I) as (A & R & _).
  set (s1 := refresh P o s) in *. clearbody s1.
  destruct (full_ok 0 s1 (inv_inv0 _ _ A) R) as (A2 & R2 & E & F). cbn [fst snd].
  split; [exact A2|]. rewrite E, F. destruct A2 as [(_ & X2 & W2 & _) _]. now rewrite X2, W2.
Qed.
(** The user levels are right from the first correction on. *)
Definition lev_rdy (s : st) : Prop := o_tms o && o_solar o = true -> utaus_cl o s.
Lemma corr_ok s : inv0 [] s -> let r := corrections P o s in
  inv0 [] (fst r) /\ lev_rdy (fst r) /\ (U o s -> U o (fst r)) /\ snd r = i_corr.
Proof.
  intros I. unfold corrections, i_corr, lev_rdy. destruct (o_tms o && o_solar o); cbv zeta.
  - unfold act. destruct (refresh_ok s I) as (A & R & _).
    set (s1 := refresh P o s) in *. clearbody s1.
    destruct (full_ok 0 s1 (inv_inv0 _ _ A) R) as (A2 & R2 & E & F). cbn [fst snd].
    refine (conj (inv_inv0 _ _ A2) (conj (fun _ => proj1 R2) (conj (fun _ => proj2 A2) _))).
    rewrite E, F. destruct A2 as [(_ & X2 & W2 & _) _]. now rewrite X2, W2.
  - refine (conj I (conj _ (conj (fun K => K) eq_refl))). discriminate.
Qed.
Lemma fourier_ok i4 s : inv [] s -> lev_rdy s -> good (i_fourier i4) ->
  inv [] (fst (corrections_fourier P o i4 s)) /\ snd (corrections_fourier P o i4 s) = i_fourier i4.
Proof.
  intros I L G. unfold corrections_fourier, i_fourier, lev_rdy in *.
  destruct (o_tms o && o_solar o); cbn [andb] in *; [|now split]. destruct (o_conv o); [|now split].
  unfold act. destruct (opt_beam_ok s (inv_inv0 _ _ I)) as (A & M1 & K1 & R1).
  set (s1 := update_beam_params_all P o (update_opt_props_all P o s)) in *.
  assert (RR : ready s1) by (refine (conj _ (conj K1 R1)); apply (utaus_cl_calm o s); auto). clearbody s1.
  apply (bind_ok (go [] s1)); [| | intros _ s' [K _]; exact K | exact G].
  { intros G1. apply phs_go; [exact RR | now apply go_refl | exact G1]. }
  intros q0 s2 _ K2 G2. apply (bind_ok (go [] s1)); [| | intros _ s' [K _]; exact K | exact G2].
  { intros G1. apply list_ok; [intros; now apply phs_go | exact K2 | exact G1]. }
  intros u0 s3 _ [I3 C3] _.
  destruct (full_ok i4 s3 (inv_inv0 _ _ I3) (ready_calm _ _ C3 RR)) as (A4 & R4 & E & F). cbn [fst snd].
  split; [exact A4|]. rewrite E, F. destruct A4 as [(_ & X2 & W2 & _) _]. now rewrite X2, W2.
Qed.
Lemma lev_calm s s' : calm s s' -> lev_rdy s -> lev_rdy s'.
Proof. intros C L K. apply (utaus_cl_calm o s); auto. Qed.
Lemma terms_ok h k s : (match h with Add sv d => same_solver sv /\ dir_ok d | _ => True end) ->
  inv0 [] s -> lev_rdy s -> (is_both h = true -> U o s) ->
  good (i_terms h k) -> inv0 [] (fst (terms P o h k s)) /\ snd (terms P o h k s) = i_terms h k.
Proof.
  intros HH I L HU G. destruct h as [sv|sv d|]; cbn [terms i_terms is_both] in *.
  - destruct (mapM_ok (fun s => inv0 [] s /\ lev_rdy s) (fun i4 => bind (get_bvp P o sv i4) (fun v => bind (corrections_fourier P o i4) (fun c => ret (v :: c))))
      (fun i4 => obind (i_bvp sv i4) (fun v => obind (i_fourier i4) (fun c => Some (v :: c)))) (seq 0 k) s) as [[A _] B];
      [|now split | exact G | now split].
    intros i4 s1 _ [I1 L1] G1.
    assert (CM : calm s1 (fst (bind (get_bvp P o sv i4) (fun v => bind (corrections_fourier P o i4) (fun c => ret (v :: c))) s1))).
    { apply (calm_of P o). intros J HJ. apply pres_bind; [now apply (pres_bvp P o)|]. intros. apply pres_bind; [now apply (pres_fourier P o)|].
      intros. apply pres_ret. }
    enough (Q : inv [] (fst (bind (get_bvp P o sv i4) (fun v => bind (corrections_fourier P o i4) (fun c => ret (v :: c))) s1)) /\
      snd (bind (get_bvp P o sv i4) (fun v => bind (corrections_fourier P o i4) (fun c => ret (v :: c))) s1) =
      obind (i_bvp sv i4) (fun v => obind (i_fourier i4) (fun c => Some (v :: c)))).
    { destruct Q as [Q1 Q2]. split; [|exact Q2]. split; [now apply inv_inv0 | now apply (lev_calm s1)]. }
    apply (bind_ok invr); [intros; now apply bvp_ok | | intros _ s' [K _]; exact K | exact G1].
    intros v s2 _ [I2 R2] G2. apply (bind_ok (inv [])); [| | auto | exact G2].
    + intros G3. apply fourier_ok; [exact I2 | intros _; apply R2 | exact G3].
    + intros c s3 _ I3 _. now split.
  - destruct HH as [HS HD].
    destruct (mapM_ok (fun s => inv0 [] s /\ lev_rdy s /\ (d = Both -> U o s)) (fun i4 => bind (get_add P o sv d i4) (fun v => bind (corrections_fourier P o i4) (fun c => ret (v :: c))))
      (fun i4 => obind (i_add sv d i4) (fun v => obind (i_fourier i4) (fun c => Some (v :: c)))) (seq 0 k) s) as [[A _] B];
      [| refine (conj I (conj L _)); intros ->; now apply HU | exact G | now split].
    intros i4 s1 _ (I1 & L1 & U1) G1.
    assert (CM : calm s1 (fst (bind (get_add P o sv d i4) (fun v => bind (corrections_fourier P o i4) (fun c => ret (v :: c))) s1))).
    { apply (calm_of P o). intros J HJ. apply pres_bind; [now apply (pres_add P o)|]. intros. apply pres_bind; [now apply (pres_fourier P o)|].
      intros. apply pres_ret. }
    enough (Q : inv [] (fst (bind (get_add P o sv d i4) (fun v => bind (corrections_fourier P o i4) (fun c => ret (v :: c))) s1)) /\
      snd (bind (get_add P o sv d i4) (fun v => bind (corrections_fourier P o i4) (fun c => ret (v :: c))) s1) =
      obind (i_add sv d i4) (fun v => obind (i_fourier i4) (fun c => Some (v :: c)))).
    { destruct Q as [Q1 Q2]. split; [|exact Q2]. refine (conj (inv_inv0 _ _ Q1) (conj _ (fun _ => proj2 Q1))). now apply (lev_calm s1). }
    apply (bind_ok (go [] s1)); [| | intros _ s' [K _]; exact K | exact G1].
    + intros G2. destruct (add_ok sv d i4 s1 HS HD I1 U1 G2) as [A2 B2]. split; [|exact B2]. split; [exact A2|].
      apply (calm_of P o). intros J HJ. now apply (pres_add P o).
    + intros v s2 _ [I2 C2] G2. apply (bind_ok (inv [])); [| | auto | exact G2].
      * intros G3. apply fourier_ok; [exact I2 | now apply (lev_calm s1) | exact G3].
      * intros c s3 _ I3 _. now split.
  - apply (bind_ok (inv0 [])); [| | auto | exact G].
    + intros _. destruct (single_ok s I) as [A B]. split; [now apply inv_inv0 | exact B].
    + intros v s3 _ I3 _. now split.
Qed.
Theorem solve_ok h k s : (match h with Add sv d => same_solver sv /\ dir_ok d | _ => True end) ->
  inv0 [] s -> (is_both h = true -> U o s) ->
  good (i_solve h k) -> inv0 [] (fst (solve P o h k s)) /\ snd (solve P o h k s) = i_solve h k.
Proof.
  intros HH I HU G. unfold solve, i_solve in *.
  destruct (corr_ok s I) as (A & L & B & D).
  apply (bind_ok (fun s' => inv0 [] s' /\ lev_rdy s' /\ (is_both h = true -> U o s'))); [| | intros _ s' [K _]; exact K | exact G].
  - intros _. split; [|exact D]. refine (conj A (conj L _)). auto.
  - intros c s1 _ (A1 & L1 & B1) G1. apply (bind_ok (inv0 [])); [| | auto | exact G1].
    + intros G2. now apply terms_ok.
    + intros ts s2 _ I2 _. now split.
Qed.
End Ideal.
