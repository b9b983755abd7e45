(** What every function of the caches keeps: a predicate that survives the elementary updates survives every
    solve, on every path, failures included. *)
From Coq Require Import List Bool PeanoNat Lia.
From Verif Require Import CacheModel CacheSpec CacheProofs.
Import ListNotations.
Open Scope nat_scope.

Section Steps.
Context {V : Type} (P : physics V) (o : opts).
Notation st := (@st V).
Notation M := (@M V).
Notation n := (o_n o).

Record stable (J : st -> Prop) : Prop := {
  j_utaus : forall s, J s -> J (update_utaus P o s);
  j_opt : forall l s, J s -> J (update_opt_props P o l s);
  j_beam : forall l s, l <= n -> J s -> J (update_beam_params P o l s);
  j_Y : forall w i4 s, J s -> J (get_Y P o w i4 s);
  j_put : forall c v s, cfam c = Tx -> J s -> J (put c v s);
  j_clear : forall f ds s, ffam f = Tx -> J s -> J (clear f ds s) }.

Definition pres {A} (J : st -> Prop) (m : M A) : Prop := forall s, J s -> J (fst (m s)).

Section Closed.
Variable J : st -> Prop.
Hypothesis H : stable J.

Lemma pres_ret {A} (a : A) : pres J (ret a).
Proof. intros s K. exact K. Qed.
Lemma pres_bind {A B} (m : M A) (k : A -> M B) : pres J m -> (forall a, pres J (k a)) -> pres J (bind m k).
Proof.
  intros Hm Hk s K. unfold bind. specialize (Hm s K). destruct (m s) as [s' [a|]]; [now apply Hk | exact Hm].
Qed.
Lemma pres_act {A} (f : st -> st) (m : M A) : (forall s, J s -> J (f s)) -> pres J m -> pres J (act f m).
Proof. intros Hf Hm s K. apply Hm. now apply Hf. Qed.
Lemma pres_mapM {A B} (f : A -> M B) l : (forall a, In a l -> pres J (f a)) -> pres J (mapM f l).
Proof.
  induction l as [|a l IH]; intros Hf; [apply pres_ret|]. cbn [mapM]. apply pres_bind; [apply Hf; now left|].
  intros b. apply pres_bind; [apply IH; intros; apply Hf; now right | intros; apply pres_ret].
Qed.
Lemma j_onto (f : nat -> st -> st) l s : (forall i s, J s -> J (f i s)) -> J s -> J (onto f l s).
Proof. intros Hf. revert s. induction l as [|i l IH]; intros s K; [exact K|]. apply IH. now apply Hf. Qed.
Lemma j_wantY w i4 s : J s -> J (want_Y P o w i4 s).
Proof. intros K. unfold want_Y. destruct (o_scalar o); [now apply (j_Y J H) | exact K]. Qed.
Lemma pres_phase_get k i4 l : pres J (phase_get P o k i4 l).
Proof.
  intros s K. unfold phase_get. cbv zeta.
  assert (K1 : J (if o_save_phase o then clear (FPh k i4 l) (ph_deps o k) s else s)).
  { destruct (o_save_phase o); [now apply (j_clear J H) | exact K]. }
  set (s1 := if o_save_phase o then _ else s) in *. clearbody s1.
  destruct (o_save_phase o && _); [exact K1|].
  set (v := ph_raw _ _ _ _). clearbody v.
  assert (K2 : J (if o_save_phase o then put (CPh k i4 l) v s1 else s1)).
  { destruct (o_save_phase o); [now apply (j_put J H) | exact K1]. }
  set (s2 := if o_save_phase o then _ else s1) in *. clearbody s2.
  destruct (ph_bad _ _ _ _ _); [exact K2|]. cbn [fst].
  destruct (o_save_phase o); [now apply (j_put J H) | exact K2].
Qed.
Lemma pres_phase k i4 l : pres J (get_phase P o k i4 l).
Proof. unfold get_phase. apply pres_act; [apply j_wantY|]. apply pres_act; [apply j_wantY|]. apply pres_phase_get. Qed.
Lemma pres_phase_all k i4 : pres J (get_phase_all P o k i4).
Proof.
  unfold get_phase_all. apply pres_act; [apply j_wantY|]. apply pres_act; [apply j_wantY|].
  apply pres_mapM. intros. apply pres_phase_get.
Qed.
Lemma pres_local i4 l : pres J (get_local P o i4 l).
Proof.
  intros s K. unfold get_local. cbv zeta.
  assert (K1 : J (if o_save_local o then clear (FLocal i4 l) (local_deps o) s else s)).
  { destruct (o_save_local o); [now apply (j_clear J H) | exact K]. }
  set (s1 := if o_save_local o then _ else s) in *. clearbody s1.
  destruct (o_save_local o && _); [exact K1|]. revert s1 K1. apply pres_bind.
  - apply pres_act; [intros; now apply (j_opt J H) | apply pres_phase].
  - intros p s1 K1. cbv beta. cbn [fst]. destruct (o_save_local o); [now apply (j_put J H) | exact K1].
Qed.
Lemma pres_layer sv i4 l : l < n -> pres J (get_layer P o sv i4 l).
Proof.
  intros Hl s K. unfold get_layer. cbv zeta.
  assert (K1 : J (if o_save_layer o then clear (FLayer i4 l) (layer_deps o) s else s)).
  { destruct (o_save_layer o); [now apply (j_clear J H) | exact K]. }
  set (s1 := if o_save_layer o then _ else s) in *. clearbody s1.
  destruct (o_save_layer o && _); [exact K1|].
  assert (K2 : J (update_opt_props P o l s1)) by now apply (j_opt J H).
  set (s2 := update_opt_props P o l s1) in *. clearbody s2.
  assert (KP : forall v s, J s -> J (if o_save_layer o then put (CLayer i4 l) v s else s)).
  { intros v s0 K0. destruct (o_save_layer o); [now apply (j_put J H) | exact K0]. }
  destruct (thin _ _ _ _); [apply KP; exact K2|]. revert s2 K2.
  apply pres_act; [intros; apply (j_beam J H); [lia | assumption]|].
  apply pres_bind; [destruct (o_solar o); [apply pres_phase | apply pres_ret]|].
  intros q. apply pres_bind; [apply pres_local|]. intros r s2 K2. cbv zeta beta. cbn [fst]. now apply KP.
Qed.
Lemma j_bound i4 s : J s -> J (get_bound P o i4 s).
Proof.
  intros K. unfold get_bound. cbv zeta.
  assert (K1 : J (update_beam_params P o n s)) by now apply (j_beam J H).
  set (s1 := update_beam_params P o n s) in *. clearbody s1.
  destruct (dirty _ _ _); [|exact K1]. apply (j_put J H); [reflexivity|]. now apply (j_clear J H).
Qed.
Lemma pres_turn sv i4 l : l < n -> pres J (add_turn P o sv i4 l).
Proof.
  intros Hl. unfold add_turn. apply pres_bind; [now apply pres_layer|]. intros v s K. cbv zeta. cbn [fst].
  apply (j_beam J H); [lia | exact K].
Qed.
Lemma in_layers l : In l (layers o) -> l < n.
Proof. intros I. apply in_seq in I. lia. Qed.
Lemma pres_total d sv i4 : pres J (get_total P o d sv i4).
Proof.
  intros s K. unfold get_total. cbv zeta.
  assert (K1 : J (if o_save_total o then clear (FTotal i4) (total_deps o) s else s)).
  { destruct (o_save_total o); [now apply (j_clear J H) | exact K]. }
  set (s1 := if o_save_total o then _ else s) in *. clearbody s1.
  destruct (o_save_total o && _); [exact K1|]. revert s1 K1. apply pres_bind.
  - apply pres_mapM. intros l I. apply pres_turn. now apply in_layers.
  - intros ls s1 K1. cbv zeta beta. cbn [fst]. destruct (o_save_total o); [now apply (j_put J H) | exact K1].
Qed.
Lemma pres_TOA sv i4 : pres J (get_total_TOA P o sv i4).
Proof.
  unfold get_total_TOA. apply pres_bind.
  - apply pres_mapM. intros l I. apply pres_turn. apply in_layers. now apply in_rev.
  - intros ls s1 K1. exact K1.
Qed.
Lemma pres_add sv d i4 : pres J (get_add P o sv d i4).
Proof.
  destruct d; cbn [get_add].
  - apply pres_bind; [apply pres_total|]. intros t s K. cbv zeta. cbn [fst]. now apply j_bound.
  - apply pres_act; [intros; now apply j_bound|]. apply pres_bind; [apply pres_total|]. intros t s K. exact K.
  - apply pres_act; [intros; now apply j_bound|]. apply pres_bind; [apply pres_TOA|]. intros t s K. exact K.
Qed.
Lemma j_opt_all s : J s -> J (update_opt_props_all P o s).
Proof. apply j_onto. intros; now apply (j_opt J H). Qed.
Lemma j_beam_all s : J s -> J (update_beam_params_all P o s).
Proof. intros K. now apply (j_beam J H). Qed.
Lemma j_refresh s : J s -> J (refresh P o s).
Proof. intros K. apply j_beam_all, j_opt_all. now apply (j_utaus J H). Qed.
Lemma pres_opt_list b m : pres J m -> pres J (opt_list b m).
Proof. intros Hm. destruct b; [exact Hm | apply pres_ret]. Qed.
Lemma pres_bvp sv i4 : pres J (get_bvp P o sv i4).
Proof.
  unfold get_bvp. cbv zeta. apply pres_act; [apply j_refresh|].
  apply pres_bind; [apply pres_opt_list, pres_phase_all|]. intros q0.
  apply pres_bind; [apply pres_opt_list, pres_phase_all|]. intros qq.
  apply pres_bind; [apply pres_opt_list, pres_phase_all|]. intros u0.
  apply pres_bind; [apply pres_opt_list, pres_phase_all|]. intros uq.
  apply pres_bind; [apply pres_opt_list, pres_mapM; intros; apply pres_local|]. intros lc s K. cbn [fst].
  destruct (o_two o); [exact K | now apply j_bound].
Qed.
Lemma pres_single : pres J (get_single P o).
Proof. apply pres_act; [apply j_refresh|]. apply pres_act; [apply j_bound|]. intros s K. exact K. Qed.
Lemma pres_corrections : pres J (corrections P o).
Proof.
  unfold corrections. destruct (_ && _); [|apply pres_ret].
  apply pres_act; [apply j_refresh|]. apply pres_act; [apply j_bound|]. intros s K. exact K.
Qed.
Lemma pres_fourier i4 : pres J (corrections_fourier P o i4).
Proof.
  unfold corrections_fourier. destruct (_ && _); [|apply pres_ret].
  apply pres_act; [apply j_opt_all|]. apply pres_act; [apply j_beam_all|].
  apply pres_bind; [apply pres_phase_all|]. intros q0.
  apply pres_bind; [apply pres_opt_list, pres_phase_all|]. intros u0.
  apply pres_act; [apply j_bound|]. intros s K. exact K.
Qed.
Lemma pres_terms h k : pres J (terms P o h k).
Proof.
  destruct h; cbn [terms].
  - apply pres_mapM. intros. apply pres_bind; [apply pres_bvp|]. intros. apply pres_bind; [apply pres_fourier|].
    intros. apply pres_ret.
  - apply pres_mapM. intros. apply pres_bind; [apply pres_add|]. intros. apply pres_bind; [apply pres_fourier|].
    intros. apply pres_ret.
  - apply pres_bind; [apply pres_single|]. intros. apply pres_ret.
Qed.
Lemma pres_solve h k : pres J (solve P o h k).
Proof.
  unfold solve. apply pres_bind; [apply pres_corrections|]. intros. apply pres_bind; [apply pres_terms|].
  intros. apply pres_ret.
Qed.
End Closed.

(** * Predicates that are stable *)
Lemma stable_calm s0 : stable (calm s0).
Proof.
  split; intros; (eapply calm_trans; [eassumption|]);
    [apply calm_utaus | apply calm_opt | apply calm_beam | apply calm_Y | apply calm_put | apply calm_clear].
Qed.
Lemma calm_of {A} (m : M A) s : (forall J, stable J -> pres J m) -> calm s (fst (m s)).
Proof. intros Hm. apply (Hm _ (stable_calm s)). apply calm_refl. Qed.

Lemma stable_opt : stable (optI P o).
Proof.
  split.
  - intros s K. eapply optI_keeps; [apply keeps_utaus; discriminate | exact K].
  - intros l s K. now apply optI_opt.
  - intros l s _ K. unfold update_beam_params. destruct (negb _); [exact K|]. cbv zeta.
    assert (K1 : optI P o (if o_psa o then get_chapman P s else s)).
    { destruct (o_psa o); [|exact K]. eapply optI_keeps; [apply keeps_chap; discriminate | exact K]. }
    revert K1. apply j_onto. intros. now apply level_opt.
  - intros w i4 s K. eapply optI_keeps; [apply keeps_Y; discriminate | exact K].
  - intros c v s E K. eapply optI_keeps; [apply keeps_put; congruence | exact K].
  - intros f ds s E K. eapply optI_keeps; [apply keeps_clear; congruence | exact K].
Qed.
Lemma stable_core : stable (fun s => core P o s /\ U o s).
Proof.
  split.
  - intros s [C K]. split; [now apply core_utaus | now apply U_utaus].
  - intros l s [C K]. split; [now apply core_opt | now apply U_opt].
  - intros l s Hl [C K]. destruct (core_beam P o l s C Hl (or_intror K)) as (A & B & _). now split.
  - intros w i4 s [C K]. split; [now apply core_Y | now apply U_Y].
  - intros c v s E [C K]. split; [now apply core_put | now apply U_put].
  - intros f ds s E [C K]. split; [now apply core_clear | apply U_clear; [congruence | assumption]].
Qed.
Lemma core_opt_all s : core P o s -> core P o (update_opt_props_all P o s).
Proof. intros C. unfold update_opt_props_all. apply (j_onto (core P o)); [intros; now apply core_opt | exact C]. Qed.
(** A full refresh needs no discipline. *)
Lemma core_beam_all s : core P o s -> core P o (update_beam_params_all P o s) /\ U o (update_beam_params_all P o s) /\ b_rdy o (update_beam_params_all P o s) n.
Proof.
  intros C. destruct (core_beam P o n s C (Nat.le_refl _) (or_introl eq_refl)) as (A & B & D).
  rewrite Nat.eqb_refl in D. now split.
Qed.
Lemma core_refresh s : core P o s -> core P o (refresh P o s) /\ U o (refresh P o s).
Proof.
  intros C. destruct (core_beam_all (update_opt_props_all P o (update_utaus P o s))) as (A & B & _).
  - apply core_opt_all. now apply core_utaus.
  - now split.
Qed.
Lemma core_bound i4 s : core P o s -> core P o (get_bound P o i4 s) /\ U o (get_bound P o i4 s).
Proof.
  intros C. unfold get_bound. cbv zeta. destruct (core_beam_all s C) as (A & B & _). unfold update_beam_params_all in *.
  set (s1 := update_beam_params P o n s) in *. clearbody s1.
  destruct (dirty _ _ _); [|now split].
  split; [apply core_put; [reflexivity|]; now apply core_clear | apply U_put, U_clear; [discriminate | exact B]].
Qed.
Notation CU := (fun s => core P o s /\ U o s).
(** Whatever the state of the beam, a solve other than two-way adding starts by bringing it up to date. *)
Lemma core_act {A} (f : st -> st) (m : M A) s :
  core P o s -> (core P o s -> core P o (f s) /\ U o (f s)) -> (forall J, stable J -> pres J m) ->
  core P o (fst (act f m s)) /\ U o (fst (act f m s)).
Proof. intros C Hf Hm. unfold act. apply (Hm _ stable_core). now apply Hf. Qed.
Lemma core_mapM {A B} (f : A -> M B) l s :
  (forall a s, core P o s -> core P o (fst (f a s)) /\ U o (fst (f a s))) ->
  core P o s -> core P o (fst (mapM f l s)).
Proof.
  intros Hf. revert s. induction l as [|a l IH]; intros s C; [exact C|]. cbn [mapM]. unfold bind at 1.
  pose proof (Hf a s C) as [C1 _]. destruct (f a s) as [s1 [b|]]; [|exact C1]. cbn [fst] in C1.
  specialize (IH s1 C1). unfold bind. destruct (mapM f l s1) as [s2 [bs|]]; exact IH.
Qed.
Lemma core_bind {A B} (m : M A) (k : A -> M B) s :
  core P o (fst (m s)) /\ U o (fst (m s)) -> (forall a J, stable J -> pres J (k a)) ->
  core P o (fst (bind m k s)) /\ U o (fst (bind m k s)).
Proof.
  intros Hm Hk. unfold bind. destruct (m s) as [s1 [a|]]; [|exact Hm]. apply (Hk a _ stable_core). exact Hm.
Qed.
Lemma core_solve h k s : core P o s -> (is_both h = true -> U o s) -> core P o (fst (solve P o h k s)).
Proof.
  intros C HU. destruct (is_both h) eqn:E.
  - apply (pres_solve _ stable_core). split; [exact C | now apply HU].
  - unfold solve. unfold bind at 1.
    assert (C1 : core P o (fst (corrections P o s))).
    { unfold corrections. destruct (_ && _); [|exact C]. apply core_act; [exact C | apply core_refresh|].
      intros J HJ. apply pres_act; [now apply j_bound | intros s0 K0; exact K0]. }
    destruct (corrections P o s) as [s1 [c|]]; [|exact C1]. cbn [fst] in C1. unfold bind.
    assert (C2 : core P o (fst (terms P o h k s1))).
    { destruct h as [sv|sv d|]; cbn [terms].
      - apply core_mapM; [|exact C1]. intros i4 s2 C2. apply core_bind.
        + unfold get_bvp. apply core_act; [exact C2 | apply core_refresh|].
          intros J HJ. repeat (apply pres_bind; [apply pres_opt_list; try (now apply pres_phase_all); apply pres_mapM; intros; now apply pres_local|intros ?]).
          intros s3 K3. cbn [fst]. destruct (o_two o); [exact K3 | now apply j_bound].
        + intros a J HJ. apply pres_bind; [now apply pres_fourier | intros; apply pres_ret].
      - apply core_mapM; [|exact C1]. intros i4 s2 C2. apply core_bind.
        + destruct d; [discriminate|..]; cbn [get_add]; (apply core_act; [exact C2 | apply core_bound|]);
            intros J HJ; (apply pres_bind; [now apply pres_total || now apply pres_TOA | intros t s3 K3; exact K3]).
        + intros a J HJ. apply pres_bind; [now apply pres_fourier | intros; apply pres_ret].
      - apply core_bind; [|intros a J HJ; apply pres_ret].
        unfold get_single. apply core_act; [exact C1 | apply core_refresh|].
        intros J HJ. apply pres_act; [now apply j_bound | intros s0 K0; exact K0]. }
    destruct (terms P o h k s1) as [s2 [ts|]]; exact C2.
Qed.

(** What every history keeps, derivatives switched off or not: the beam at the top and the factors of the polynomials. *)
Definition base (s : st) : Prop :=
  sca s (CBtau 0) = tau0 P /\ sca s (CBtran 0) = tran0 P /\ sca s (CBtauL 0) = tau0_l P /\ sca s (CBtranL 0) = tran0_l P /\ cdI P s.
Lemma cdI_keeps s s' : keeps Ty s s' -> cdI P s -> cdI P s'.
Proof.
  intros (_ & O & _ & C) I w k E. rewrite O in E by reflexivity. rewrite C by reflexivity. now apply I.
Qed.
Lemma base_keeps s s' : keeps Ty s s' -> keeps Tb s s' -> base s -> base s'.
Proof.
  intros KY (_ & _ & _ & C) (A & B & D & E & F). unfold base. rewrite !C by reflexivity.
  refine (conj A (conj B (conj D (conj E _)))). now apply (cdI_keeps s).
Qed.
Lemma stable_base : stable base.
Proof.
  split.
  - intros s. apply base_keeps; apply keeps_utaus; discriminate.
  - intros l s. apply base_keeps; apply keeps_opt; discriminate.
  - intros l s _ K. unfold update_beam_params. destruct (negb _); [exact K|]. cbv zeta.
    assert (K1 : base (if o_psa o then get_chapman P s else s)).
    { destruct (o_psa o); [|exact K]. revert K. apply base_keeps; apply keeps_chap; discriminate. }
    revert K1. apply j_onto. clear s K. intros i s (A & B & C & D & E).
    refine (conj _ (conj _ (conj _ (conj _ _)))).
    1-4: rewrite level_sca by reflexivity; rewrite opt_other by discriminate; assumption.
    eapply cdI_keeps; [|exact E]. apply keeps_level; discriminate.
  - intros w i4 s (A & B & C & D & E). destruct (keeps_Y P o Tb w i4 s) as (_ & _ & _ & F); [discriminate|].
    unfold base. rewrite !F by reflexivity. refine (conj A (conj B (conj C (conj D _)))). now apply cdI_Y.
  - intros c v s E. apply base_keeps; apply keeps_put; congruence.
  - intros f ds s E. apply base_keeps; apply keeps_clear; congruence.
Qed.
End Steps.
