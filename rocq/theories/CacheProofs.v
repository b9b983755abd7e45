(** Invariants of the caches: the scaled optical properties, the user levels, the Chapman factors,
    the beam and the Legendre polynomials. *)
From Coq Require Import List Bool PeanoNat Lia.
From Verif Require Import CacheModel CacheSpec.
Import ListNotations.
Open Scope nat_scope.

Lemma dep_eqb_eq a b : dep_eqb a b = true <-> a = b.
Proof. split; [destruct a, b; try discriminate; reflexivity | intros ->; destruct b; reflexivity]. Qed.
Lemma dep_eqb_refl a : dep_eqb a a = true.
Proof. now apply dep_eqb_eq. Qed.
Lemma mem_in d ds : mem d ds = true <-> In d ds.
Proof.
  unfold mem. rewrite existsb_exists. split.
  - intros (x & H & E). apply dep_eqb_eq in E. now subst.
  - intros H. exists d. now rewrite dep_eqb_refl.
Qed.
Lemma yk_eqb_eq a b : yk_eqb a b = true <-> a = b.
Proof. split; [destruct a, b; try discriminate; reflexivity | intros ->; destruct b; reflexivity]. Qed.
Lemma phk_eqb_eq a b : phk_eqb a b = true <-> a = b.
Proof. split; [destruct a, b; try discriminate; reflexivity | intros ->; destruct b; reflexivity]. Qed.
Ltac eqbs := repeat match goal with
  | H : _ && _ = true |- _ => apply andb_true_iff in H; destruct H
  | H : (_ =? _) = true |- _ => apply Nat.eqb_eq in H
  | H : yk_eqb _ _ = true |- _ => apply yk_eqb_eq in H
  | H : phk_eqb _ _ = true |- _ => apply phk_eqb_eq in H
  end; subst.
Lemma fid_eqb_eq a b : fid_eqb a b = true <-> a = b.
Proof.
  split.
  - destruct a, b; cbn; intros H; try discriminate; eqbs; reflexivity.
  - intros ->. destruct b; cbn; rewrite ?Nat.eqb_refl; cbn; try reflexivity; destruct w || destruct k; reflexivity.
Qed.
Lemma cid_eqb_eq a b : cid_eqb a b = true <-> a = b.
Proof.
  split.
  - destruct a, b; cbn; intros H; try discriminate; eqbs; reflexivity.
  - intros ->. destruct b; cbn; rewrite ?Nat.eqb_refl; cbn; try reflexivity; destruct w || destruct k; reflexivity.
Qed.
Lemma fid_refl a : fid_eqb a a = true. Proof. now apply fid_eqb_eq. Qed.
Lemma cid_refl a : cid_eqb a a = true. Proof. now apply cid_eqb_eq. Qed.
Lemma fid_neq a b : a <> b -> fid_eqb a b = false.
Proof. intros H. destruct (fid_eqb a b) eqn:E; [apply fid_eqb_eq in E; contradiction | reflexivity]. Qed.
Lemma cid_neq a b : a <> b -> cid_eqb a b = false.
Proof. intros H. destruct (cid_eqb a b) eqn:E; [apply cid_eqb_eq in E; contradiction | reflexivity]. Qed.

Section Inv.
Context {V : Type}.
Notation st := (@st V).

Lemma sca_put c v (s : st) : sca (put c v s) c = v.
Proof. unfold put. cbn. now rewrite cid_refl. Qed.
Lemma sca_put_neq c c' v (s : st) : c <> c' -> sca (put c v s) c' = sca s c'.
Proof. intros H. unfold put. cbn. now rewrite cid_neq. Qed.
Lemma sfl_clear_neq f f' ds (s : st) d : f <> f' -> sfl (clear f ds s) f' d = sfl s f' d.
Proof. intros H. unfold clear. cbn. now rewrite fid_neq. Qed.
Lemma dirty_clear f ds (s : st) : dirty (clear f ds s) f ds = false.
Proof.
  unfold dirty. apply not_true_is_false. intros H. apply existsb_exists in H. destruct H as (d & I & H).
  unfold clear in H. cbn in H. rewrite fid_refl in H. apply andb_true_iff in H. destruct H as [_ H].
  apply mem_in in I. now rewrite I in H.
Qed.
Lemma dirty_clear_neq f f' ds ds' (s : st) : f <> f' -> dirty (clear f ds s) f' ds' = dirty s f' ds'.
Proof.
  intros H. unfold dirty. induction ds' as [|d r IH]; cbn [existsb]; [reflexivity|].
  now rewrite IH, sfl_clear_neq.
Qed.
Lemma dirty_false (s : st) f ds : dirty s f ds = false <-> forall d, In d ds -> sfl s f d = false.
Proof.
  unfold dirty. split.
  - intros H d I. destruct (sfl s f d) eqn:E; [|reflexivity].
    enough (existsb (sfl s f) ds = true) by congruence. apply existsb_exists. eauto.
  - intros H. apply not_true_is_false. intros E. apply existsb_exists in E. destruct E as (d & I & E).
    rewrite H in E; [discriminate | assumption].
Qed.
Lemma dirty_true (s : st) f ds : dirty s f ds = true <-> exists d, In d ds /\ sfl s f d = true.
Proof. apply existsb_exists. Qed.

(** Code never changes the inputs and never raises a bit. *)
Definition calm (s s' : st) : Prop :=
  sx s' = sx s /\ svf s' = svf s /\ forall f d, sfl s' f d = true -> sfl s f d = true.
Lemma calm_refl s : calm s s.
Proof. now repeat split. Qed.
Lemma calm_trans s s1 s2 : calm s s1 -> calm s1 s2 -> calm s s2.
Proof. intros (A & B & C) (A' & B' & C'). repeat split; [congruence..| auto]. Qed.
Lemma calm_put c v s : calm s (put c v s).
Proof. now repeat split. Qed.
Lemma calm_clear f ds s : calm s (clear f ds s).
Proof. repeat split. intros f' d. cbn. destruct (fid_eqb f f'); [|auto]. intros H. now apply andb_true_iff in H. Qed.
Lemma calm_ord w i s : calm s (set_ord w i s).
Proof. now repeat split. Qed.
Lemma calm_assign us s : calm s (assign us s).
Proof.
  revert s. induction us as [|u us IH]; intros s; [apply calm_refl|].
  eapply calm_trans; [apply (calm_put (fst u) (snd u s)) | apply IH].
Qed.
Lemma assign_sfl us (s : st) : sfl (assign us s) = sfl s.
Proof. revert s. induction us as [|u us IH]; intros s; [reflexivity|]. exact (IH (put (fst u) (snd u s) s)). Qed.
Lemma assign_ord us (s : st) : sord (assign us s) = sord s.
Proof. revert s. induction us as [|u us IH]; intros s; [reflexivity|]. exact (IH (put (fst u) (snd u s) s)). Qed.
Lemma assign_other us (s : st) c : ~ In c (map fst us) -> sca (assign us s) c = sca s c.
Proof.
  revert s. induction us as [|u us IH]; intros s N; [reflexivity|]. cbn in N.
  transitivity (sca (put (fst u) (snd u s) s) c); [apply IH; tauto | apply sca_put_neq; tauto].
Qed.
Lemma calm_false s s' f d : calm s s' -> sfl s f d = false -> sfl s' f d = false.
Proof. intros (_ & _ & C) H. destruct (sfl s' f d) eqn:E; [|reflexivity]. apply C in E. congruence. Qed.
Lemma calm_clean s s' f ds : calm s s' -> dirty s f ds = false -> dirty s' f ds = false.
Proof. intros C H. rewrite dirty_false in *. intros d I. eapply calm_false; eauto. Qed.
Lemma calm_onto (f : nat -> st -> st) l s : (forall i s, calm s (f i s)) -> calm s (onto f l s).
Proof.
  intros H. revert s. induction l as [|i l IH]; intros s; [apply calm_refl|].
  eapply calm_trans; [apply H | apply IH].
Qed.

Section Code.
Variable (P : physics V) (o : opts).
Notation n := (o_n o).

(** * The scaled optical properties *)
Definition optI (s : st) : Prop :=
  o_delta_m o = true -> forall l,
  let F := sfl s (FOpt l) in let x := sx s in
  (F COEF = false -> sca s (CCoef l) = t_coef P o x l) /\
  (F OMEGA = false -> sca s (COmega l) = t_omega P o x l) /\
  (F LTAU = false -> sca s (CLtau l) = t_ltau P o x l) /\
  (o_calc o = true ->
   (F COEF = false -> F COEF_L = false -> sca s (CCoefL l) = t_coef_l P o x l) /\
   (F OMEGA = false -> F OMEGA_L = false -> sca s (COmegaL l) = t_omega_l P o x l) /\
   (F LTAU = false -> F LTAU_L = false -> sca s (CLtauL l) = t_ltau_l P o x l)).

Lemma renew_sfl c cl F Fl v vl (s : st) : sfl (renew o c cl F Fl v vl s) = sfl s.
Proof. unfold renew. destruct F, Fl, (o_calc o); reflexivity. Qed.
Lemma renew_sx c cl F Fl v vl (s : st) : sx (renew o c cl F Fl v vl s) = sx s.
Proof. unfold renew. destruct F, Fl, (o_calc o); reflexivity. Qed.
Lemma renew_svf c cl F Fl v vl (s : st) : svf (renew o c cl F Fl v vl s) = svf s.
Proof. unfold renew. destruct F, Fl, (o_calc o); reflexivity. Qed.
Lemma renew_ord c cl F Fl v vl (s : st) : sord (renew o c cl F Fl v vl s) = sord s.
Proof. unfold renew. destruct F, Fl, (o_calc o); reflexivity. Qed.
Lemma renew_other c cl F Fl v vl (s : st) c' : c <> c' -> cl <> c' -> sca (renew o c cl F Fl v vl s) c' = sca s c'.
Proof. intros N Nl. unfold renew. destruct F, Fl, (o_calc o); cbn [andb]; rewrite ?sca_put_neq by assumption; reflexivity. Qed.
Lemma renew_val c cl F Fl v vl (s : st) : cl <> c -> (F = false -> sca s c = v) -> sca (renew o c cl F Fl v vl s) c = v.
Proof.
  intros N H. unfold renew. destruct F, Fl, (o_calc o); cbn [andb]; rewrite ?sca_put_neq by assumption; rewrite ?sca_put; auto.
Qed.
Lemma renew_der c cl F Fl v vl (s : st) : o_calc o = true -> (F = false -> Fl = false -> sca s cl = vl) ->
  sca (renew o c cl F Fl v vl s) cl = vl.
Proof. intros K H. unfold renew. rewrite K. destruct F, Fl; cbn [andb]; rewrite ?sca_put; auto. Qed.

Lemma calm_opt l s : calm s (update_opt_props P o l s).
Proof.
  unfold update_opt_props. destruct (negb (o_delta_m o)); [apply calm_refl|].
  destruct (negb _); [apply calm_refl|]. cbv zeta.
  eapply calm_trans; [|apply calm_clear]. unfold calm.
  rewrite !renew_sfl, !renew_sx, !renew_svf. now repeat split.
Qed.
Lemma opt_sub l s d f : f <> FOpt l -> sfl (update_opt_props P o l s) f d = sfl s f d.
Proof.
  intros N. unfold update_opt_props. destruct (negb (o_delta_m o)); [reflexivity|].
  destruct (negb _); [reflexivity|]. cbv zeta. rewrite sfl_clear_neq by congruence.
  now rewrite !renew_sfl.
Qed.
Lemma opt_clean l s : o_delta_m o = true -> dirty (update_opt_props P o l s) (FOpt l) opt_deps = false.
Proof.
  intros D. unfold update_opt_props. rewrite D. cbn [negb].
  destruct (dirty s (FOpt l) opt_deps) eqn:E; cbn [negb]; [apply dirty_clear | assumption].
Qed.
(** The stored quantities update_opt_props can write. *)
Definition optc (c : cid) : bool :=
  match c with CCoef _ | CCoefL _ | COmega _ | COmegaL _ | CLtau _ | CLtauL _ => true | _ => false end.
Definition lay_of (c : cid) : nat :=
  match c with CCoef l | CCoefL l | COmega l | COmegaL l | CLtau l | CLtauL l => l | _ => 0 end.
Lemma opt_other l s c : (optc c = true -> lay_of c <> l) -> sca (update_opt_props P o l s) c = sca s c.
Proof.
  intros N. unfold update_opt_props. destruct (negb (o_delta_m o)); [reflexivity|].
  destruct (negb _); [reflexivity|]. cbv zeta. unfold clear. cbn [sca].
  rewrite !renew_other; try reflexivity; intros <-; cbn in N; now apply N.
Qed.
Lemma opt_ord l s : sord (update_opt_props P o l s) = sord s.
Proof.
  unfold update_opt_props. destruct (negb (o_delta_m o)); [reflexivity|].
  destruct (negb _); [reflexivity|]. cbv zeta. unfold clear. cbn [sord]. now rewrite !renew_ord.
Qed.
Lemma optI_opt l s : optI s -> optI (update_opt_props P o l s).
Proof.
  intros I D l'. specialize (I D l'). cbv zeta in *.
  destruct (calm_opt l s) as (X & _ & _). rewrite X.
  destruct (Nat.eq_dec l' l) as [->|N].
  2: { rewrite !opt_sub by congruence. rewrite !opt_other by (intros _; assumption). exact I. }
  unfold update_opt_props. rewrite D. cbn [negb].
  destruct (dirty s (FOpt l) opt_deps) eqn:E; cbn [negb]; [|exact I].
  clear X E. destruct I as (A & B & C & L). unfold clear. cbn [sca].
  unfold t_coef_l, t_omega_l, t_ltau_l, t_coef, t_omega, t_ltau, t_calc, t_f, t_f_l in *. rewrite D in *.
  split; [|split; [|split]].
  - intros _. rewrite !renew_other by discriminate. apply renew_val; [discriminate | assumption].
  - intros _. rewrite renew_other by discriminate. apply renew_val; [discriminate|].
    rewrite renew_other by discriminate. assumption.
  - intros _. apply renew_val; [discriminate|]. rewrite !renew_other by discriminate. assumption.
  - intros K. destruct (L K) as (A' & B' & C'). rewrite K in *. split; [|split].
    + intros _ _. rewrite !renew_other by discriminate. apply renew_der; assumption.
    + intros _ _. rewrite renew_other by discriminate. apply renew_der; [assumption|].
      rewrite renew_other by discriminate. assumption.
    + intros _ _. apply renew_der; [assumption|]. rewrite !renew_other by discriminate. assumption.
Qed.
(** A value is up to date once the layer has been brought up to date. *)
Definition opt_ok (s : st) (l : nat) : Prop :=
  let x := sx s in
  e_coef o s l = t_coef P o x l /\ e_omega o s l = t_omega P o x l /\ e_ltau o s l = t_ltau P o x l /\
  e_coef_l P o s l = t_coef_l P o x l /\ e_omega_l P o s l = t_omega_l P o x l /\ e_ltau_l P o s l = t_ltau_l P o x l.
Definition opt_cl (s : st) (l : nat) : Prop := o_delta_m o = true -> dirty s (FOpt l) opt_deps = false.
Lemma opt_fresh s l : optI s -> opt_cl s l -> opt_ok s l.
Proof.
  intros I C. unfold opt_ok, e_coef, e_omega, e_ltau, e_coef_l, e_omega_l, e_ltau_l, ifc.
  unfold t_coef_l, t_omega_l, t_ltau_l, t_calc.
  destruct (o_delta_m o) eqn:D.
  - specialize (C D). specialize (I D l). cbv zeta in I. rewrite dirty_false in C.
    assert (F1 : sfl s (FOpt l) COEF = false) by (apply C; cbn; tauto).
    assert (F2 : sfl s (FOpt l) COEF_L = false) by (apply C; cbn; tauto).
    assert (F3 : sfl s (FOpt l) OMEGA = false) by (apply C; cbn; tauto).
    assert (F4 : sfl s (FOpt l) OMEGA_L = false) by (apply C; cbn; tauto).
    assert (F5 : sfl s (FOpt l) LTAU = false) by (apply C; cbn; tauto).
    assert (F6 : sfl s (FOpt l) LTAU_L = false) by (apply C; cbn; tauto).
    destruct I as (A & B & T & L).
    unfold t_coef_l, t_omega_l, t_ltau_l, t_calc, t_coef, t_omega, t_ltau in *. rewrite D in *.
    destruct (o_calc o); [destruct (L eq_refl) as (A' & B' & T')|]; repeat split; auto.
  - unfold t_coef, t_omega, t_ltau. rewrite D. destruct (o_calc o); repeat split.
Qed.
Lemma opt_cl_calm s s' l : calm s s' -> opt_cl s l -> opt_cl s' l.
Proof. intros C H D. eapply calm_clean; eauto. Qed.
Lemma opt_cl_opt s l : opt_cl (update_opt_props P o l s) l.
Proof. intros D. now apply opt_clean. Qed.

(** * Chapman factors *)
Definition chapI (s : st) : Prop := dirty s FChap chap_deps = false -> sca s CChap = t_chap P (sx s).
Lemma calm_chap s : calm s (get_chapman P s).
Proof.
  unfold get_chapman. destruct (dirty _ _ _); [|apply calm_refl].
  eapply calm_trans; [apply calm_clear | apply calm_put].
Qed.
Lemma chap_ok s : chapI s -> sca (get_chapman P s) CChap = t_chap P (sx s).
Proof.
  intros I. unfold get_chapman. destruct (dirty _ _ _) eqn:E; [|auto]. now rewrite sca_put.
Qed.

(** * The beam *)
Definition lev_ok (s : st) (m : nat) : Prop :=
  let x := sx s in
  sca s (CBtau m) = t_btau P o x m /\ sca s (CBtran m) = t_btran P o x m /\
  (o_calc o = true -> sca s (CBtauL m) = t_btau_l P o x m /\ sca s (CBtranL m) = t_btran_l P o x m).
Definition slab_ok (s : st) (l : nat) : Prop :=
  let x := sx s in
  sca s (CAs l) = t_as P o x l /\ sca s (CAtran l) = t_atran P o x l /\
  (o_calc o = true -> sca s (CAsL l) = t_as_l P o x l /\ sca s (CAtranL l) = t_atran_l P o x l).
Definition clean (s : st) (l : nat) : Prop := dirty s (FBeam l) beam_deps = false.
(** Levels and layers down to [m]. *)
Definition down_ok (s : st) (m : nat) : Prop :=
  (forall k, k <= m -> lev_ok s k) /\ (forall l, l < m -> slab_ok s l).
Definition beamI (s : st) : Prop :=
  o_solar o = true -> forall m, m <= n -> (forall j, j < m -> clean s j) -> down_ok s m.
(** A layer with out-of-date scaled properties is out of date for the beam. *)
Definition subI (s : st) : Prop :=
  o_delta_m o = true -> forall l d, In d opt_deps -> sfl s (FOpt l) d = true -> sfl s (FBeam l) d = true.
(** The out-of-date layers reach the surface. *)
Definition U (s : st) : Prop :=
  o_solar o = true -> forall i j, i <= j -> j < n -> dirty s (FBeam i) beam_deps = true -> dirty s (FBeam j) beam_deps = true.

Lemma opt_in_beam d : In d opt_deps -> In d beam_deps.
Proof. intros H. unfold beam_deps. apply in_or_app. now left. Qed.
Lemma clean_opt s l : subI s -> clean s l -> opt_cl s l.
Proof.
  intros S C D. unfold clean in C. rewrite dirty_false in *. intros d I.
  destruct (sfl s (FOpt l) d) eqn:E; [|reflexivity]. apply (S D) in E; [|assumption].
  rewrite C in E; [discriminate | now apply opt_in_beam].
Qed.
Lemma subI_opt l s : subI s -> subI (update_opt_props P o l s).
Proof.
  intros S D l' d I H. rewrite opt_sub by discriminate. apply (S D); [assumption|].
  destruct (calm_opt l s) as (_ & _ & C). now apply C.
Qed.

Lemma calm_level i s : calm s (beam_level P o i s).
Proof.
  unfold beam_level.
  assert (H : calm s (update_opt_props P o i (clear (FBeam i) beam_deps s))).
  { eapply calm_trans; [apply calm_clear | apply calm_opt]. }
  destruct (o_calc o).
  - eapply calm_trans; [exact H | eapply calm_trans; apply calm_assign].
  - eapply calm_trans; [exact H | apply calm_assign].
Qed.
Definition beamc (i : nat) (c : cid) : bool :=
  match c with
  | CBtau m | CBtran m | CBtauL m | CBtranL m => m =? S i
  | CAs l | CAtran l | CAsL l | CAtranL l => l =? i
  | _ => false
  end.
Lemma level_sca i s c : beamc i c = false ->
  sca (beam_level P o i s) c = sca (update_opt_props P o i (clear (FBeam i) beam_deps s)) c.
Proof.
  intros N. unfold beam_level.
  assert (E1 : (S i =? S i) = true) by apply Nat.eqb_refl.
  assert (E2 : (i =? i) = true) by apply Nat.eqb_refl.
  destruct (o_calc o); rewrite ?assign_other; try reflexivity; cbn [beam_values beam_derivs map fst In];
    intros H; repeat (destruct H as [<-|H]; [cbn [beamc] in N; congruence|]); exact H.
Qed.
Lemma level_sfl i s f d :
  sfl (beam_level P o i s) f d = sfl (update_opt_props P o i (clear (FBeam i) beam_deps s)) f d.
Proof. unfold beam_level. destruct (o_calc o); rewrite ?assign_sfl; reflexivity. Qed.
Lemma level_ord i s : sord (beam_level P o i s) = sord s.
Proof.
  unfold beam_level. transitivity (sord (update_opt_props P o i (clear (FBeam i) beam_deps s))).
  - destruct (o_calc o); rewrite ?assign_ord; reflexivity.
  - rewrite opt_ord. reflexivity.
Qed.

(** The scaled values of the layers above are right when their flags are clear. *)
Lemma map_ext_in' {A B} (f g : A -> B) l : (forall a, In a l -> f a = g a) -> map f l = map g l.
Proof. intros H. induction l as [|a l IH]; [reflexivity|]. cbn. rewrite H, IH; [reflexivity| |now left]. intros; apply H; now right. Qed.

Lemma values_ok (s : st) i (x : inp V) :
  sx s = x -> (forall j, j <= i -> e_ltau o s j = t_ltau P o x j) ->
  sca s (CBtau i) = t_btau P o x i -> (o_psa o = true -> sca s CChap = t_chap P x) ->
  let s' := assign (beam_values P o i) s in
  sca s' (CBtau (S i)) = t_btau P o x (S i) /\ sca s' (CBtran (S i)) = t_btran P o x (S i) /\ sca s' (CAs i) = t_as P o x i /\ sca s' (CAtran i) = t_atran P o x i.
Proof.
  intros X E B H. assert (NE : (S i =? i) = false) by (apply Nat.eqb_neq; lia).
  assert (MT : map (e_ltau o s) (seq 0 (S i)) = map (t_ltau P o x) (seq 0 (S i))).
  { apply map_ext_in'. intros j Hj. apply in_seq in Hj. apply E. lia. }
  specialize (E i (Nat.le_refl i)).
  assert (B1 : (if negb (o_psa o) then b_pp P (sca s (CBtau i)) (e_ltau o s i) (sx s MU_0 0)
                else b_psa P (sca s CChap) (map (e_ltau o s) (seq 0 (S i)))) = t_btau P o x (S i)).
  { cbn [t_btau]. rewrite X, B, E, MT. destruct (o_psa o) eqn:EP; cbn [negb]; [now rewrite H | reflexivity]. }
  unfold beam_values, assign. cbn [fold_left fst snd]. rewrite B1.
  set (s1 := put (CBtau (S i)) _ s).
  assert (S1 : sca s1 (CBtau (S i)) = t_btau P o x (S i)) by apply sca_put.
  assert (S1' : sca s1 (CBtau i) = t_btau P o x i) by (unfold s1; rewrite sca_put_neq by (intros K; injection K; lia); exact B).
  assert (E1 : e_ltau o s1 i = t_ltau P o x i) by exact E.
  clearbody s1. rewrite S1.
  set (s2 := put (CBtran (S i)) _ s1).
  assert (S2 : sca s2 (CBtran (S i)) = t_btran P o x (S i)) by apply sca_put.
  assert (S2a : sca s2 (CBtau (S i)) = t_btau P o x (S i)) by exact S1.
  assert (S2b : sca s2 (CBtau i) = t_btau P o x i) by exact S1'.
  assert (E2 : e_ltau o s2 i = t_ltau P o x i) by exact E1.
  clearbody s2. rewrite S2a, S2b, E2.
  set (s3 := put (CAs i) _ s2).
  assert (S3 : sca s3 (CAs i) = t_as P o x i) by apply sca_put.
  assert (E3 : e_ltau o s3 i = t_ltau P o x i) by exact E2.
  assert (S3a : sca s3 (CBtau (S i)) = t_btau P o x (S i)) by exact S2a.
  assert (S3b : sca s3 (CBtran (S i)) = t_btran P o x (S i)) by exact S2.
  clearbody s3. rewrite E3, S3.
  refine (conj _ (conj _ (conj _ _))); [exact S3a | exact S3b | exact S3 | apply sca_put].
Qed.
Lemma derivs_ok (s : st) i (x : inp V) :
  o_calc o = true ->
  sx s = x -> (forall j, j <= i -> e_ltau_l P o s j = t_ltau_l P o x j) -> e_ltau o s i = t_ltau P o x i ->
  sca s (CBtauL i) = t_btau_l P o x i -> (o_psa o = true -> sca s CChap = t_chap P x) ->
  sca s (CBtran (S i)) = t_btran P o x (S i) -> sca s (CAs i) = t_as P o x i -> sca s (CAtran i) = t_atran P o x i ->
  let s' := assign (beam_derivs P o i) s in
  sca s' (CBtauL (S i)) = t_btau_l P o x (S i) /\ sca s' (CBtranL (S i)) = t_btran_l P o x (S i) /\ sca s' (CAsL i) = t_as_l P o x i /\ sca s' (CAtranL i) = t_atran_l P o x i.
Proof.
  intros K X EL E B H T A AT.
  assert (MT : map (e_ltau_l P o s) (seq 0 (S i)) = map (t_ltau_l P o x) (seq 0 (S i))).
  { apply map_ext_in'. intros j Hj. apply in_seq in Hj. apply EL. lia. }
  specialize (EL i (Nat.le_refl i)).
  assert (B1 : (if negb (o_psa o) then b_pp_l P (sca s (CBtauL i)) (e_ltau_l P o s i) (sx s MU_0 0)
                else b_psa_l P (sca s CChap) (map (e_ltau_l P o s) (seq 0 (S i)))) = t_btau_l P o x (S i)).
  { cbn [t_btau_l]. rewrite X, B, EL, MT. destruct (o_psa o) eqn:EP; cbn [negb]; [now rewrite H | reflexivity]. }
  unfold beam_derivs, assign. cbn [fold_left fst snd]. rewrite B1.
  set (s1 := put (CBtauL (S i)) _ s).
  assert (S1 : sca s1 (CBtauL (S i)) = t_btau_l P o x (S i)) by apply sca_put.
  assert (S1' : sca s1 (CBtauL i) = t_btau_l P o x i) by (unfold s1; rewrite sca_put_neq by (intros Q; injection Q; lia); exact B).
  assert (F1 : e_ltau_l P o s1 i = t_ltau_l P o x i) by exact EL.
  assert (E1 : e_ltau o s1 i = t_ltau P o x i) by exact E.
  assert (T1 : sca s1 (CBtran (S i)) = t_btran P o x (S i)) by exact T.
  assert (A1 : sca s1 (CAs i) = t_as P o x i) by exact A.
  assert (AT1 : sca s1 (CAtran i) = t_atran P o x i) by exact AT.
  clearbody s1. rewrite S1, T1.
  set (s2 := put (CBtranL (S i)) _ s1).
  assert (S2 : sca s2 (CBtranL (S i)) = t_btran_l P o x (S i)) by apply sca_put.
  assert (S2a : sca s2 (CBtauL (S i)) = t_btau_l P o x (S i)) by exact S1.
  assert (S2b : sca s2 (CBtauL i) = t_btau_l P o x i) by exact S1'.
  assert (F2 : e_ltau_l P o s2 i = t_ltau_l P o x i) by exact F1.
  assert (E2 : e_ltau o s2 i = t_ltau P o x i) by exact E1.
  assert (A2 : sca s2 (CAs i) = t_as P o x i) by exact A1.
  assert (AT2 : sca s2 (CAtran i) = t_atran P o x i) by exact AT1.
  clearbody s2. rewrite S2a, S2b, E2, F2, A2.
  set (s3 := put (CAsL i) _ s2).
  assert (S3 : sca s3 (CAsL i) = t_as_l P o x i) by apply sca_put.
  assert (S3a : sca s3 (CBtauL (S i)) = t_btau_l P o x (S i)) by exact S2a.
  assert (S3b : sca s3 (CBtranL (S i)) = t_btran_l P o x (S i)) by exact S2.
  assert (F3 : e_ltau_l P o s3 i = t_ltau_l P o x i) by exact F2.
  assert (E3 : e_ltau o s3 i = t_ltau P o x i) by exact E2.
  assert (A3 : sca s3 (CAs i) = t_as P o x i) by exact A2.
  assert (AT3 : sca s3 (CAtran i) = t_atran P o x i) by exact AT2.
  clearbody s3. rewrite E3, F3, A3, AT3, S3.
  refine (conj _ (conj _ (conj _ _))); [exact S3a | exact S3b | exact S3 | apply sca_put].
Qed.
Lemma level_new i s :
  optI s -> subI s -> (forall j, j < i -> opt_cl s j) -> lev_ok s i ->
  (o_psa o = true -> sca s CChap = t_chap P (sx s)) ->
  let s' := beam_level P o i s in
  lev_ok s' (S i) /\ slab_ok s' i /\ clean s' i /\ opt_cl s' i.
Proof.
  intros I SU C L H. cbv zeta.
  set (s1 := update_opt_props P o i (clear (FBeam i) beam_deps s)).
  assert (CM : calm s s1) by (eapply calm_trans; [apply calm_clear | apply calm_opt]).
  assert (X : sx s1 = sx s) by apply CM.
  assert (I1 : optI s1) by (apply optI_opt; exact I).
  assert (CL1 : opt_cl s1 i) by apply opt_cl_opt.
  assert (OK : forall j, j <= i -> e_ltau o s1 j = t_ltau P o (sx s) j /\ e_ltau_l P o s1 j = t_ltau_l P o (sx s) j).
  { intros j Hj. assert (CJ : opt_cl s1 j).
    { destruct (Nat.eq_dec j i) as [->|]; [exact CL1|]. eapply opt_cl_calm; [exact CM | apply C; lia]. }
    pose proof (opt_fresh s1 j I1 CJ) as (_ & _ & A & _ & _ & B). rewrite X in A, B. now split. }
  assert (B0 : sca s1 (CBtau i) = t_btau P o (sx s) i).
  { unfold s1. rewrite opt_other by discriminate. apply L. }
  assert (B0L : o_calc o = true -> sca s1 (CBtauL i) = t_btau_l P o (sx s) i).
  { intros K. unfold s1. rewrite opt_other by discriminate. now apply L. }
  assert (HC : o_psa o = true -> sca s1 CChap = t_chap P (sx s)).
  { intros K. unfold s1. rewrite opt_other by discriminate. now apply H. }
  assert (CB : clean (beam_level P o i s) i).
  { unfold clean. rewrite dirty_false. intros d ID. rewrite level_sfl, opt_sub by discriminate.
    pose proof (dirty_clear (FBeam i) beam_deps s) as K. rewrite dirty_false in K. now apply K. }
  assert (CO : opt_cl (beam_level P o i s) i).
  { intros D. specialize (CL1 D). rewrite dirty_false in *. intros d ID. rewrite level_sfl. now apply CL1. }
  destruct (OK i (Nat.le_refl i)) as [T TL].
  assert (X' : sx (beam_level P o i s) = sx s) by apply calm_level.
  assert (OKV := values_ok s1 i (sx s) X (fun j Hj => proj1 (OK j Hj)) B0 HC). cbv zeta in OKV.
  destruct OKV as (V1 & V2 & V3 & V4).
  unfold lev_ok, slab_ok. cbv zeta. rewrite X'.
  unfold beam_level in *. fold s1 in CB, CO, X' |- *.
  destruct (o_calc o) eqn:EC.
  - set (s5 := assign (beam_values P o i) s1) in *.
    assert (CM5 : calm s1 s5) by apply calm_assign.
    assert (OTH : forall c, beamc i c = false -> sca s5 c = sca s1 c).
    { intros c N. apply assign_other. cbn [beam_values map fst In]. intros Q.
      repeat (destruct Q as [<-|Q]; [cbn [beamc] in N; rewrite Nat.eqb_refl in N; discriminate|]). exact Q. }
    assert (XL : forall j, e_ltau_l P o s5 j = e_ltau_l P o s1 j).
    { intros j. unfold e_ltau_l. rewrite OTH by reflexivity. destruct CM5 as (-> & _). reflexivity. }
    assert (XT : forall j, e_ltau o s5 j = e_ltau o s1 j).
    { intros j. unfold e_ltau. rewrite OTH by reflexivity. destruct CM5 as (-> & _). reflexivity. }
    assert (NE : (i =? S i) = false) by (apply Nat.eqb_neq; lia).
    assert (OKD := derivs_ok s5 i (sx s) EC (eq_trans (proj1 CM5) X)
              (fun j Hj => eq_trans (XL j) (proj2 (OK j Hj))) (eq_trans (XT i) T)
              (eq_trans (OTH (CBtauL i) NE) (B0L eq_refl))
              (fun K => eq_trans (OTH CChap eq_refl) (HC K)) V2 V3 V4). cbv zeta in OKD.
    destruct OKD as (W1 & W2 & W3 & W4).
    assert (OTH' : forall c, ~ In c [CBtauL (S i); CBtranL (S i); CAsL i; CAtranL i] ->
              sca (assign (beam_derivs P o i) s5) c = sca s5 c) by (intros c N; apply assign_other; exact N).
    rewrite (OTH' (CBtau (S i))), (OTH' (CBtran (S i))), (OTH' (CAs i)), (OTH' (CAtran i))
      by (cbn; intuition discriminate).
    refine (conj _ (conj _ (conj CB CO))); (split; [assumption | split; [assumption | intros _; split; assumption]]).
  - refine (conj _ (conj _ (conj CB CO))); (split; [assumption | split; [assumption | discriminate]]).
Qed.

(** * Families of flag words and stored quantities *)
Inductive fam := Tu | Tc | Ty | To | Tb | Tx.
Definition ffam (f : fid) : fam :=
  match f with FUtaus => Tu | FChap => Tc | FY _ _ => Ty | FOpt _ => To | FBeam _ => Tb | _ => Tx end.
Definition cfam (c : cid) : fam :=
  match c with
  | CTtau | CUlev | CUtau => Tu | CChap => Tc | CCd _ | CY _ _ => Ty
  | CCoef _ | CCoefL _ | COmega _ | COmegaL _ | CLtau _ | CLtauL _ => To
  | CBtau _ | CBtauL _ | CBtran _ | CBtranL _ | CAs _ | CAsL _ | CAtran _ | CAtranL _ => Tb
  | _ => Tx
  end.
(** Nothing of the family changes. *)
Definition keeps (t : fam) (s s' : st) : Prop :=
  sx s' = sx s /\ (t = Ty -> sord s' = sord s) /\ (forall f d, ffam f = t -> sfl s' f d = sfl s f d) /\
  (forall c, cfam c = t -> sca s' c = sca s c).
Lemma keeps_refl t s : keeps t s s.
Proof. now repeat split. Qed.
Lemma keeps_trans t s s1 s2 : keeps t s s1 -> keeps t s1 s2 -> keeps t s s2.
Proof.
  intros (A & B & C & D) (A' & B' & C' & D'). refine (conj _ (conj _ (conj _ _))).
  - congruence.
  - intros K. rewrite B', B; auto.
  - intros f d K. rewrite C', C; auto.
  - intros c K. rewrite D', D; auto.
Qed.
Lemma keeps_put t c v s : cfam c <> t -> keeps t s (put c v s).
Proof.
  intros N. refine (conj eq_refl (conj (fun _ => eq_refl) (conj (fun _ _ _ => eq_refl) _))).
  intros c' K. apply sca_put_neq. congruence.
Qed.
Lemma keeps_clear t f ds s : ffam f <> t -> keeps t s (clear f ds s).
Proof.
  intros N. refine (conj eq_refl (conj (fun _ => eq_refl) (conj _ (fun _ _ => eq_refl)))).
  intros f' d K. apply sfl_clear_neq. congruence.
Qed.
Lemma keeps_ord t w i s : t <> Ty -> keeps t s (set_ord w i s).
Proof. intros N. refine (conj eq_refl (conj _ (conj (fun _ _ _ => eq_refl) (fun _ _ => eq_refl)))). intros ->. contradiction. Qed.
Lemma keeps_onto t (f : nat -> st -> st) l s : (forall i s, keeps t s (f i s)) -> keeps t s (onto f l s).
Proof.
  intros H. revert s. induction l as [|i l IH]; intros s; [apply keeps_refl|].
  eapply keeps_trans; [apply H | apply IH].
Qed.
Lemma keeps_opt t l s : t <> To -> keeps t s (update_opt_props P o l s).
Proof.
  intros N. refine (conj _ (conj _ (conj _ _))).
  - apply calm_opt.
  - intros _. apply opt_ord.
  - intros f d K. apply opt_sub. intros ->. now apply N.
  - intros c K. apply opt_other. intros Q. exfalso. destruct c; try discriminate Q; now apply N.
Qed.
Lemma keeps_level t i s : t <> To -> t <> Tb -> keeps t s (beam_level P o i s).
Proof.
  intros N N'. refine (conj _ (conj _ (conj _ _))).
  - apply calm_level.
  - intros _. apply level_ord.
  - intros f d K. rewrite level_sfl, opt_sub by (intros ->; now apply N). apply sfl_clear_neq. intros <-. now apply N'.
  - intros c K. rewrite level_sca by (destruct c; try reflexivity; exfalso; now apply N').
    rewrite opt_other by (intros Q; exfalso; destruct c; try discriminate Q; now apply N). reflexivity.
Qed.
Lemma keeps_chap t s : t <> Tc -> keeps t s (get_chapman P s).
Proof.
  intros N. unfold get_chapman. destruct (dirty _ _ _); [|apply keeps_refl].
  eapply keeps_trans; [apply keeps_clear | apply keeps_put]; intros K; now apply N.
Qed.
Lemma calm_beam l s : calm s (update_beam_params P o l s).
Proof.
  unfold update_beam_params. destruct (negb (o_solar o)); [apply calm_refl|]. cbv zeta.
  eapply calm_trans; [|apply calm_onto; intros; apply calm_level].
  destruct (o_psa o); [apply calm_chap | apply calm_refl].
Qed.
Lemma keeps_beam t l s : t <> To -> t <> Tb -> t <> Tc -> keeps t s (update_beam_params P o l s).
Proof.
  intros A B C. unfold update_beam_params. destruct (negb (o_solar o)); [apply keeps_refl|]. cbv zeta.
  eapply keeps_trans; [|apply keeps_onto; intros; now apply keeps_level].
  destruct (o_psa o); [now apply keeps_chap | apply keeps_refl].
Qed.

Lemma dirty_keeps t s s' f ds : keeps t s s' -> ffam f = t -> dirty s' f ds = dirty s f ds.
Proof.
  intros (_ & _ & C & _) E. unfold dirty. induction ds as [|d ds IH]; cbn [existsb]; [reflexivity|].
  now rewrite IH, C.
Qed.
Lemma chapI_keeps s s' : keeps Tc s s' -> chapI s -> chapI s'.
Proof.
  intros K I H. rewrite (dirty_keeps Tc s s') in H by (assumption || reflexivity).
  destruct K as (X & _ & _ & C). rewrite X, C by reflexivity. now apply I.
Qed.
Lemma optI_keeps s s' : keeps To s s' -> optI s -> optI s'.
Proof.
  intros (X & _ & F & C) I D l. specialize (I D l). cbv zeta in *.
  rewrite X. rewrite !F, !C by reflexivity. exact I.
Qed.
Lemma lev_ok_ext s s' m : sx s' = sx s ->
  sca s' (CBtau m) = sca s (CBtau m) -> sca s' (CBtran m) = sca s (CBtran m) ->
  sca s' (CBtauL m) = sca s (CBtauL m) -> sca s' (CBtranL m) = sca s (CBtranL m) -> lev_ok s m -> lev_ok s' m.
Proof. intros X A B C D L. unfold lev_ok in *. cbv zeta in *. rewrite X, A, B, C, D. exact L. Qed.
Lemma slab_ok_ext s s' l : sx s' = sx s ->
  sca s' (CAs l) = sca s (CAs l) -> sca s' (CAtran l) = sca s (CAtran l) ->
  sca s' (CAsL l) = sca s (CAsL l) -> sca s' (CAtranL l) = sca s (CAtranL l) -> slab_ok s l -> slab_ok s' l.
Proof. intros X A B C D L. unfold slab_ok in *. cbv zeta in *. rewrite X, A, B, C, D. exact L. Qed.
Lemma down_ok_keeps s s' m : keeps Tb s s' -> down_ok s m -> down_ok s' m.
Proof.
  intros (X & _ & _ & C) [A B]. split; intros k Hk.
  - eapply lev_ok_ext; [exact X | apply C; reflexivity.. | now apply A].
  - eapply slab_ok_ext; [exact X | apply C; reflexivity.. | now apply B].
Qed.
Lemma beamI_keeps s s' : keeps Tb s s' -> beamI s -> beamI s'.
Proof.
  intros K I S m Hm H. eapply down_ok_keeps; [exact K|]. apply I; [assumption..|].
  intros j Hj. unfold clean. rewrite <- (dirty_keeps Tb s s') by (assumption || reflexivity). now apply H.
Qed.
Lemma U_keeps s s' : keeps Tb s s' -> U s -> U s'.
Proof.
  intros K I S i j A B. rewrite !(dirty_keeps Tb s s') by (assumption || reflexivity). now apply I.
Qed.
Lemma subI_keeps s s' : (forall l d, In d opt_deps -> sfl s' (FOpt l) d = true -> sfl s (FOpt l) d = true) -> keeps Tb s s' -> subI s -> subI s'.
Proof.
  intros F (_ & _ & C & _) I D l d ID H. rewrite C by reflexivity. apply (I D); [assumption|]. now apply F.
Qed.

(** * The loop over the levels *)
Lemma level_opt i s : optI s -> optI (beam_level P o i s).
Proof.
  intros I. assert (I1 : optI (update_opt_props P o i (clear (FBeam i) beam_deps s))) by (apply optI_opt; exact I).
  eapply optI_keeps; [|exact I1]. refine (conj _ (conj _ (conj _ _))).
  - transitivity (sx s); [apply calm_level | symmetry]. apply (calm_opt i (clear (FBeam i) beam_deps s)).
  - discriminate.
  - intros f d _. apply level_sfl.
  - intros c K. apply level_sca. destruct c; try reflexivity; discriminate K.
Qed.
Lemma level_sub i s : subI s -> subI (beam_level P o i s).
Proof.
  intros I D l d ID H. rewrite level_sfl in H |- *. rewrite opt_sub by discriminate.
  destruct (Nat.eq_dec l i) as [->|N].
  - pose proof (opt_clean i (clear (FBeam i) beam_deps s) D) as C. rewrite dirty_false in C.
    rewrite C in H by assumption. discriminate.
  - rewrite sfl_clear_neq by congruence. rewrite opt_sub in H by congruence. rewrite sfl_clear_neq in H by discriminate.
    now apply (I D).
Qed.
Lemma level_flag i j s d : i <> j -> sfl (beam_level P o i s) (FBeam j) d = sfl s (FBeam j) d.
Proof. intros N. rewrite level_sfl, opt_sub by discriminate. apply sfl_clear_neq. congruence. Qed.

Lemma loop_ok c : forall k s,
  optI s -> subI s -> (forall j, j < k -> clean s j) -> down_ok s k ->
  (o_psa o = true -> sca s CChap = t_chap P (sx s)) ->
  let s' := onto (beam_level P o) (seq k c) s in
  optI s' /\ subI s' /\ (forall j, j < k + c -> clean s' j) /\ down_ok s' (k + c) /\
  (forall j d, k + c <= j -> sfl s' (FBeam j) d = sfl s (FBeam j) d).
Proof.
  induction c as [|c IH]; intros k s I SU C D H.
  - cbv zeta. rewrite Nat.add_0_r. exact (conj I (conj SU (conj C (conj D (fun _ _ _ => eq_refl))))).
  - cbn [seq onto fold_left]. cbv zeta.
    destruct (level_new k s I SU) as (L1 & L2 & L3 & L4).
    { intros j Hj. apply clean_opt; [exact SU | now apply C]. }
    { now apply D. }
    { exact H. }
    set (s1 := beam_level P o k s) in *.
    assert (CM : calm s s1) by apply calm_level.
    assert (X : sx s1 = sx s) by apply CM.
    assert (I1 : optI s1) by (apply level_opt; exact I).
    assert (SU1 : subI s1) by (apply level_sub; exact SU).
    assert (C1 : forall j, j < S k -> clean s1 j).
    { intros j Hj. destruct (Nat.eq_dec j k) as [->|]; [exact L3|].
      unfold clean. eapply calm_clean; [exact CM | apply C; lia]. }
    assert (SC : forall c, beamc k c = false -> optc c = false -> sca s1 c = sca s c).
    { intros c0 N1 N2. unfold s1. rewrite level_sca by assumption. rewrite opt_other by congruence. reflexivity. }
    assert (D1 : down_ok s1 (S k)).
    { destruct D as [DA DB]. split; intros j Hj.
      - destruct (Nat.eq_dec j (S k)) as [->|]; [exact L1|].
        assert (E : (j =? S k) = false) by (apply Nat.eqb_neq; lia).
        eapply lev_ok_ext; [exact X | apply SC; [exact E | reflexivity].. | apply DA; lia].
      - destruct (Nat.eq_dec j k) as [->|]; [exact L2|].
        assert (E : (j =? k) = false) by (apply Nat.eqb_neq; lia).
        eapply slab_ok_ext; [exact X | apply SC; [exact E | reflexivity].. | apply DB; lia]. }
    assert (H1 : o_psa o = true -> sca s1 CChap = t_chap P (sx s1)).
    { intros K. rewrite X, SC by reflexivity. now apply H. }
    specialize (IH (S k) s1 I1 SU1 C1 D1 H1). cbv zeta in IH.
    destruct IH as (A & B & CC & DD & E). replace (k + S c) with (S k + c) by lia.
    refine (conj A (conj B (conj CC (conj DD _)))).
    intros j d Hj. etransitivity; [apply E; exact Hj|]. unfold s1. apply level_flag. lia.
Qed.
Lemma first_spec c : forall i s, let k := first_dirty s i c in
  i <= k /\ k <= i + c /\ (forall j, i <= j -> j < k -> clean s j) /\ (k < i + c -> dirty s (FBeam k) beam_deps = true).
Proof.
  induction c as [|c IH]; intros i s; cbn [first_dirty].
  - refine (conj (Nat.le_refl _) (conj _ (conj _ _))); lia || (intros; lia).
  - destruct (dirty s (FBeam i) beam_deps) eqn:E; cbv zeta.
    + refine (conj (Nat.le_refl _) (conj _ (conj _ _))); [lia | intros; lia | auto].
    + destruct (IH (S i) s) as (A & B & C & D). refine (conj _ (conj _ (conj _ _))); [lia | lia | | intros; apply D; lia].
      intros j H1 H2. destruct (Nat.eq_dec j i) as [->|]; [exact E | apply C; lia].
Qed.
(** Bringing the beam up to date down to [m]: the whole profile always, a part when the out-of-date layers reach
    the surface. *)
Lemma beam_update_ok l s :
  optI s -> subI s -> chapI s -> beamI s -> l <= n -> (l = n \/ U s) -> o_solar o = true ->
  let s' := update_beam_params P o l s in
  let m := if l =? n then l else S l in
  optI s' /\ subI s' /\ chapI s' /\ beamI s' /\ U s' /\ (forall j, j < m -> clean s' j) /\ down_ok s' m.
Proof.
  intros I SU CH B Hl HU SO. cbv zeta. unfold update_beam_params. rewrite SO. cbn [negb].
  set (m := if l =? n then l else S l).
  assert (Hm : m <= n /\ (m = n \/ U s)).
  { unfold m. destruct (Nat.eqb_spec l n) as [->|N]; [split; [lia | now left]|].
    split; [lia|]. destruct HU as [->|HU]; [contradiction | now right]. }
  destruct Hm as [Hm HU'].
  pose proof (first_spec m 0 s) as F. cbv zeta in F. set (k := first_dirty s 0 m) in *.
  destruct F as (_ & K1 & K2 & K3). cbn [Nat.add] in *.
  set (s1 := if o_psa o then get_chapman P s else s).
  assert (KP : forall t, t <> Tc -> keeps t s s1).
  { intros t N. unfold s1. destruct (o_psa o); [now apply keeps_chap | apply keeps_refl]. }
  assert (X : sx s1 = sx s) by apply (KP Tb ltac:(discriminate)).
  assert (I1 : optI s1) by (eapply optI_keeps; [apply KP; discriminate | exact I]).
  assert (SU1 : subI s1).
  { eapply subI_keeps; [|apply KP; discriminate | exact SU].
    intros l' d _ Q. destruct (KP To ltac:(discriminate)) as (_ & _ & FF & _). rewrite FF in Q by reflexivity. exact Q. }
  assert (C1 : forall j, j < k -> clean s1 j).
  { intros j Hj. unfold clean. rewrite (dirty_keeps Tb s s1) by ((apply KP; discriminate) || reflexivity).
    apply K2; lia. }
  assert (D1 : down_ok s1 k).
  { eapply down_ok_keeps; [apply KP; discriminate|]. apply B; [assumption | lia | intros; apply K2; lia]. }
  assert (H1 : o_psa o = true -> sca s1 CChap = t_chap P (sx s1)).
  { intros K. rewrite X. unfold s1. rewrite K. now apply chap_ok. }
  assert (CH1 : chapI s1).
  { intros Q. unfold s1 in *. destruct (o_psa o) eqn:EP; [|now apply CH]. apply H1. reflexivity. }
  destruct (loop_ok (m - k) k s1 I1 SU1 C1 D1 H1) as (A1 & A2 & A3 & A4 & A5).
  replace (k + (m - k)) with m in * by lia.
  set (s' := onto (beam_level P o) (seq k (m - k)) s1) in *.
  assert (FLG : forall j ds, m <= j -> dirty s' (FBeam j) ds = dirty s (FBeam j) ds).
  { intros j ds Hj. transitivity (dirty s1 (FBeam j) ds).
    - unfold dirty. induction ds as [|d ds IHd]; cbn [existsb]; [reflexivity|]. now rewrite IHd, A5.
    - apply (dirty_keeps Tb); [apply KP; discriminate | reflexivity]. }
  refine (conj A1 (conj A2 (conj _ (conj _ (conj _ (conj A3 A4)))))).
  - eapply chapI_keeps; [|exact CH1]. apply keeps_onto. intros. apply keeps_level; discriminate.
  - intros _ q Hq Q. destruct (Nat.le_gt_cases q m) as [L|G].
    + destruct A4 as [DA DB]. split; intros; [apply DA | apply DB]; lia.
    + (* below the refreshed part: either nothing was out of date or the layer below still is *)
      assert (NM : m <> n) by lia.
      destruct HU' as [E|UU]; [contradiction|].
      destruct (Nat.eq_dec k m) as [E|NE].
      * assert (ES : s' = s1) by (unfold s'; rewrite E, Nat.sub_diag; reflexivity). rewrite ES in *.
        eapply down_ok_keeps; [apply KP; discriminate|]. apply B; [assumption | lia|].
        intros j Hj. unfold clean. rewrite <- (dirty_keeps Tb s s1) by ((apply KP; discriminate) || reflexivity).
        now apply Q.
      * exfalso. assert (KD : dirty s (FBeam k) beam_deps = true) by (apply K3; lia).
        assert (MD : dirty s (FBeam m) beam_deps = true) by (apply (UU SO k m); [lia | lia | exact KD]).
        specialize (Q m G). unfold clean in Q. rewrite FLG in Q by lia. congruence.
  - intros _ i j Hij Hj Q. destruct (Nat.lt_ge_cases i m) as [L|G].
    + pose proof (A3 i L) as W. unfold clean in W. congruence.
    + rewrite FLG in * by lia. destruct HU' as [E|UU]; [lia|]. eapply UU; eauto.
Qed.

(** * User levels *)
Definition t_lev_ (x : inp V) : V := t_lev P (x UTAUS 0) (t_sum P (map (x LTAU) (layers o))).
Definition t_utau (x : inp V) : V :=
  t_scale P (t_lev_ x) (map (fun l => dm_f P (x COEF l)) (layers o)) (map (x OMEGA) (layers o)).
Definition utauI (s : st) : Prop :=
  let F := sfl s FUtaus in let x := sx s in
  (F LTAU = false -> sca s CTtau = t_sum P (map (x LTAU) (layers o))) /\
  (F LTAU = false -> F UTAUS = false -> sca s CUlev = t_lev_ x) /\
  (o_delta_m o = true -> F LTAU = false -> F UTAUS = false -> F COEF = false -> sca s CUtau = t_utau x).
Lemma calm_utaus s : calm s (update_utaus P o s).
Proof.
  unfold update_utaus. destruct (negb (o_taus o)); [apply calm_refl|]. cbv zeta.
  eapply calm_trans; [|apply calm_clear].
  destruct (sfl s FUtaus LTAU), (sfl s FUtaus UTAUS), (sfl s FUtaus COEF), (o_delta_m o); cbn [orb andb]; now repeat split.
Qed.
Lemma keeps_utaus t s : t <> Tu -> keeps t s (update_utaus P o s).
Proof.
  intros N. unfold update_utaus. destruct (negb (o_taus o)); [apply keeps_refl|]. cbv zeta.
  eapply keeps_trans; [|apply keeps_clear; intros K; now apply N].
  destruct (sfl s FUtaus LTAU), (sfl s FUtaus UTAUS), (sfl s FUtaus COEF), (o_delta_m o); cbn [orb andb];
    repeat (eapply keeps_trans; [|apply keeps_put; intros K; now apply N]); apply keeps_refl.
Qed.
Lemma utauI_keeps s s' : keeps Tu s s' -> utauI s -> utauI s'.
Proof.
  intros (X & _ & F & C) I. unfold utauI in *. cbv zeta in *. rewrite X. rewrite !F, !C by reflexivity. exact I.
Qed.
Lemma utauI_utaus s : utauI s -> utauI (update_utaus P o s).
Proof.
  intros I. unfold update_utaus. destruct (negb (o_taus o)); [exact I|]. cbv zeta.
  destruct I as (A & B & C). unfold utauI. cbv zeta.
  unfold t_utau, t_lev_ in *.
  destruct (sfl s FUtaus LTAU) eqn:F1; destruct (sfl s FUtaus UTAUS) eqn:F2; destruct (sfl s FUtaus COEF) eqn:F3;
    destruct (o_delta_m o) eqn:D; unfold clear, put; cbn [orb andb sca sfl sx cid_eqb];
    (split; [intros _ | split; [intros _ _ | intros K _ _ _; try discriminate K]]);
    rewrite ?A, ?B by reflexivity; auto.
Qed.
Definition utaus_cl (s : st) : Prop := o_taus o = true -> dirty s FUtaus utaus_deps = false.
Lemma utaus_cl_utaus s : utaus_cl (update_utaus P o s).
Proof. intros T. unfold update_utaus. rewrite T. cbn [negb]. apply dirty_clear. Qed.
Definition t_utaus (x : inp V) : V := if o_taus o then (if o_delta_m o then t_utau x else t_lev_ x) else x ULEVELS 0.
Lemma utaus_fresh s : utauI s -> utaus_cl s -> e_utaus o s = t_utaus (sx s).
Proof.
  intros (A & B & C) CL. unfold e_utaus, t_utaus. destruct (o_taus o) eqn:T; [|reflexivity].
  specialize (CL T). rewrite dirty_false in CL.
  destruct (o_delta_m o); [apply C | apply B]; try reflexivity; apply CL; cbn; tauto.
Qed.

(** * Legendre polynomials *)
Fixpoint cdn (i : nat) : V := match i with 0 => cd0 P | S j => cd_step P (S j) (cdn j) end.
Definition t_Y (x : inp V) (vf : nat -> V) (w : yk) (i4 : nat) : V :=
  leg P i4 (cdn i4) (mus P o (mk x vf (fun _ _ => true) (fun _ => none P) (fun _ => None)) w).
Lemma mus_sx s s' w : sx s' = sx s -> mus P o s' w = mus P o s w.
Proof. intros X. unfold mus. now rewrite X. Qed.
Definition cdI (s : st) : Prop := forall w k, sord s w = Some k -> sca s (CCd w) = cdn k.
Definition yI (s : st) : Prop :=
  cdI s /\
  (o_save_leg o = true -> forall w i4, dirty s (FY w i4) (y_deps o w) = false -> sca s (CY w i4) = leg P i4 (cdn i4) (mus P o s w)) /\
  (o_save_leg o = false -> forall w k, sord s w = Some k -> dirty s (FY w k) (y_deps o w) = false -> sca s (CY w 0) = leg P k (cdn k) (mus P o s w)).
Lemma cd_loop w c : forall k s, (k = 0 \/ exists j, k = S j /\ sca s (CCd w) = cdn j) -> c <> 0 ->
  sca (onto (cd_turn P w) (seq k c) s) (CCd w) = cdn (k + c - 1).
Proof.
  induction c as [|c IH]; intros k s H N; [contradiction|].
  cbn [seq onto fold_left].
  assert (E : sca (cd_turn P w k s) (CCd w) = cdn k).
  { unfold cd_turn. rewrite sca_put. destruct H as [->|(j & -> & E)]; [reflexivity|]. now rewrite E. }
  destruct c as [|c].
  - cbn [seq fold_left]. replace (k + 1 - 1) with k by lia. exact E.
  - replace (k + S (S c) - 1) with (S k + S c - 1) by lia. apply IH; [right; eauto | discriminate].
Qed.
Lemma cd_loop_keeps t w l s : t <> Ty -> keeps t s (onto (cd_turn P w) l s).
Proof. intros N. apply keeps_onto. intros. apply keeps_put. intros K. now apply N. Qed.
Lemma cd_loop_calm w l s : calm s (onto (cd_turn P w) l s).
Proof. apply calm_onto. intros. apply calm_put. Qed.
Lemma cd_loop_sfl w l s : sfl (onto (cd_turn P w) l s) = sfl s.
Proof. revert s. induction l as [|i l IH]; intros s; [reflexivity|]. exact (IH (cd_turn P w i s)). Qed.
Lemma cd_loop_ord w l s : sord (onto (cd_turn P w) l s) = sord s.
Proof. revert s. induction l as [|i l IH]; intros s; [reflexivity|]. exact (IH (cd_turn P w i s)). Qed.
Lemma cd_loop_sca w l s c : c <> CCd w -> sca (onto (cd_turn P w) l s) c = sca s c.
Proof.
  intros N. revert s. induction l as [|i l IH]; intros s; [reflexivity|].
  transitivity (sca (cd_turn P w i s) c); [exact (IH _)|]. apply sca_put_neq. congruence.
Qed.
Lemma calm_Y w i4 s : calm s (get_Y P o w i4 s).
Proof.
  unfold get_Y. cbv zeta. destruct (negb _); [apply calm_clear|].
  destruct (match sord (clear _ _ s) w with Some k => k =? i4 | None => false end).
  - eapply calm_trans; [apply calm_clear | apply calm_put].
  - eapply calm_trans; [|apply calm_ord]. eapply calm_trans; [|apply calm_put].
    eapply calm_trans; [apply calm_clear | apply cd_loop_calm].
Qed.
Lemma keeps_Y t w i4 s : t <> Ty -> keeps t s (get_Y P o w i4 s).
Proof.
  intros N. assert (NY : Ty <> t) by congruence. unfold get_Y. cbv zeta.
  destruct (negb _); [apply keeps_clear; exact NY|].
  destruct (match sord (clear _ _ s) w with Some k => k =? i4 | None => false end).
  - eapply keeps_trans; [|apply keeps_put; exact NY]. apply keeps_clear; exact NY.
  - eapply keeps_trans; [|now apply keeps_ord]. eapply keeps_trans; [|apply keeps_put; exact NY].
    eapply keeps_trans; [|now apply cd_loop_keeps]. apply keeps_clear; exact NY.
Qed.
Lemma yI_keeps s s' : keeps Ty s s' -> yI s -> yI s'.
Proof.
  intros K (A & B & C). pose proof K as (X & O & F & CC). specialize (O eq_refl).
  refine (conj _ (conj _ _)).
  - intros w k E. rewrite O in E. rewrite CC by reflexivity. now apply A.
  - intros S w i4 D. rewrite (dirty_keeps Ty s s') in D by (assumption || reflexivity).
    rewrite CC, (mus_sx s) by (reflexivity || assumption). now apply B.
  - intros S w k E D. rewrite O in E. rewrite (dirty_keeps Ty s s') in D by (assumption || reflexivity).
    rewrite CC, (mus_sx s) by (reflexivity || assumption). now apply C.
Qed.

(** The polynomials of angle set [w] and order [i4] are at hand. *)
Definition y_rdy (s : st) (w : yk) (i4 : nat) : Prop :=
  dirty s (FY w i4) (y_deps o w) = false /\ (o_save_leg o = false -> sord s w = Some i4).
Lemma y_fresh s w i4 : yI s -> y_rdy s w i4 -> sca s (CY w (slot o i4)) = leg P i4 (cdn i4) (mus P o s w).
Proof.
  intros (_ & A & B) [D O]. unfold slot. destruct (o_save_leg o) eqn:E; [now apply A | apply B; auto].
Qed.
Lemma clear_ord f ds (s : st) : sord (clear f ds s) = sord s.
Proof. reflexivity. Qed.
Lemma clear_sca f ds (s : st) : sca (clear f ds s) = sca s.
Proof. reflexivity. Qed.
Lemma FY_neq w w' i i' : (w, i) <> (w', i') -> FY w i <> FY w' i'.
Proof. intros N K. injection K as -> ->. now apply N. Qed.
(** What get_Y leaves behind. *)
Lemma get_Y_facts w i4 s : cdI s ->
  (forall w' i', w' <> w \/ i' <> i4 -> forall d, sfl (get_Y P o w i4 s) (FY w' i') d = sfl s (FY w' i') d) /\
  dirty (get_Y P o w i4 s) (FY w i4) (y_deps o w) = false /\
  (forall w', w' <> w -> sord (get_Y P o w i4 s) w' = sord s w') /\
  (forall w', w' <> w -> sca (get_Y P o w i4 s) (CCd w') = sca s (CCd w')) /\
  (forall w' i', w' <> w \/ i' <> slot o i4 -> sca (get_Y P o w i4 s) (CY w' i') = sca s (CY w' i')) /\
  (sord (get_Y P o w i4 s) w = Some i4 /\ sca (get_Y P o w i4 s) (CCd w) = cdn i4 /\
     sca (get_Y P o w i4 s) (CY w (slot o i4)) = leg P i4 (cdn i4) (mus P o s w)
   \/ sord (get_Y P o w i4 s) w = sord s w /\ sca (get_Y P o w i4 s) (CCd w) = sca s (CCd w) /\
      sca (get_Y P o w i4 s) (CY w (slot o i4)) = sca s (CY w (slot o i4)) /\
      dirty s (FY w i4) (y_deps o w) = false /\ (o_save_leg o = false -> sord s w = Some i4)).
Proof.
  intros CD. unfold get_Y. cbv zeta.
  set (s1 := clear (FY w i4) (y_deps o w) s). change (sord s1 w) with (sord s w).
  assert (CL : dirty s1 (FY w i4) (y_deps o w) = false) by apply dirty_clear.
  assert (FL : forall w' i', w' <> w \/ i' <> i4 -> forall d, sfl s1 (FY w' i') d = sfl s (FY w' i') d).
  { intros w' i' N d. apply sfl_clear_neq. apply FY_neq. intros K. injection K as -> ->. destruct N as [N|N]; now apply N. }
  assert (SC : sca s1 = sca s) by reflexivity. assert (SO : sord s1 = sord s) by reflexivity.
  assert (MU : mus P o s1 w = mus P o s w) by reflexivity. clearbody s1.
  assert (CYN : forall w' i', w' <> w \/ i' <> slot o i4 -> CY w (slot o i4) <> CY w' i').
  { intros w' i' N K. injection K as K1 K2. destruct N as [N|N]; apply N; congruence. }
  destruct (negb _) eqn:NF.
  - apply negb_true_iff in NF.
    refine (conj FL (conj CL (conj _ (conj _ (conj _ (or_intror (conj _ (conj _ (conj _ _)))))))));
      try (intros; rewrite ?SO, ?SC; reflexivity).
    destruct (o_save_leg o); [split; [exact NF | discriminate]|].
    apply orb_false_iff in NF. destruct NF as [NF SM]. split; [exact NF|]. intros _.
    apply negb_false_iff in SM. destruct (sord s w) as [k|]; [|discriminate]. apply Nat.eqb_eq in SM. now subst.
  - destruct (sord s w) as [k|] eqn:OR.
    1: destruct (Nat.eqb_spec k i4) as [->|NE].
    + refine (conj FL (conj CL (conj _ (conj _ (conj _ (or_introl (conj _ (conj _ _)))))))).
      * intros w' N. cbn. now rewrite SO.
      * intros w' N. rewrite sca_put_neq by discriminate. now rewrite SC.
      * intros w' i' N. rewrite sca_put_neq by (now apply CYN). now rewrite SC.
      * cbn. now rewrite SO.
      * rewrite sca_put_neq by discriminate. rewrite SC. now apply CD.
      * rewrite sca_put, SC, MU. now rewrite (CD w i4 OR).
    + set (k' := if i4 <? k then 0 else S k).
      assert (HK : k' <= i4) by (unfold k'; destruct (Nat.ltb_spec i4 k); lia).
      set (s2 := onto (cd_turn P w) (seq k' (S i4 - k')) s1).
      assert (C2 : sca s2 (CCd w) = cdn i4).
      { unfold s2. rewrite cd_loop; [f_equal; lia | | lia]. unfold k'. destruct (Nat.ltb_spec i4 k); [now left|].
        right. exists k. split; [reflexivity|]. rewrite SC. now apply CD. }
      assert (M2 : mus P o s2 w = mus P o s w).
      { rewrite <- MU. apply mus_sx. apply cd_loop_calm. }
      refine (conj _ (conj _ (conj _ (conj _ (conj _ (or_introl (conj _ (conj _ _)))))))).
      * intros w' i' N d. cbn [set_ord put sfl]. unfold s2. rewrite cd_loop_sfl. now apply FL.
      * rewrite dirty_false in CL |- *. intros d ID. cbn [set_ord put sfl]. unfold s2. rewrite cd_loop_sfl. now apply CL.
      * intros w' N. cbn [set_ord put sord]. destruct (yk_eqb w w') eqn:E; [apply yk_eqb_eq in E; congruence|].
        unfold s2. now rewrite cd_loop_ord, SO.
      * intros w' N. cbn [set_ord sca]. rewrite sca_put_neq by discriminate. unfold s2.
        rewrite cd_loop_sca by congruence. now rewrite SC.
      * intros w' i' N. cbn [set_ord sca]. rewrite sca_put_neq by (now apply CYN). unfold s2.
        rewrite cd_loop_sca by discriminate. now rewrite SC.
      * cbn [set_ord sord]. now replace (yk_eqb w w) with true by (destruct w; reflexivity).
      * cbn [set_ord sca]. rewrite sca_put_neq by discriminate. exact C2.
      * cbn [set_ord sca]. rewrite sca_put, C2, M2. reflexivity.
    + set (s2 := onto (cd_turn P w) (seq 0 (S i4 - 0)) s1).
      assert (C2 : sca s2 (CCd w) = cdn i4).
      { unfold s2. rewrite cd_loop; [f_equal; lia | now left | lia]. }
      assert (M2 : mus P o s2 w = mus P o s w).
      { rewrite <- MU. apply mus_sx. apply cd_loop_calm. }
      refine (conj _ (conj _ (conj _ (conj _ (conj _ (or_introl (conj _ (conj _ _)))))))).
      * intros w' i' N d. cbn [set_ord put sfl]. unfold s2. rewrite cd_loop_sfl. now apply FL.
      * rewrite dirty_false in CL |- *. intros d ID. cbn [set_ord put sfl]. unfold s2. rewrite cd_loop_sfl. now apply CL.
      * intros w' N. cbn [set_ord put sord]. destruct (yk_eqb w w') eqn:E; [apply yk_eqb_eq in E; congruence|].
        unfold s2. now rewrite cd_loop_ord, SO.
      * intros w' N. cbn [set_ord sca]. rewrite sca_put_neq by discriminate. unfold s2.
        rewrite cd_loop_sca by congruence. now rewrite SC.
      * intros w' i' N. cbn [set_ord sca]. rewrite sca_put_neq by (now apply CYN). unfold s2.
        rewrite cd_loop_sca by discriminate. now rewrite SC.
      * cbn [set_ord sord]. now replace (yk_eqb w w) with true by (destruct w; reflexivity).
      * cbn [set_ord sca]. rewrite sca_put_neq by discriminate. exact C2.
      * cbn [set_ord sca]. rewrite sca_put, C2, M2. reflexivity.
Qed.
Lemma yk_dec (a b : yk) : {a = b} + {a <> b}.
Proof. decide equality. Qed.
Lemma cdI_Y w i4 s : cdI s -> cdI (get_Y P o w i4 s).
Proof.
  intros CD. destruct (get_Y_facts w i4 s CD) as (_ & _ & O & C & _ & E).
  intros w' k Q. destruct (yk_dec w' w) as [->|N].
  - destruct E as [(O' & C' & _)|(O' & C' & _)].
    + rewrite O' in Q. injection Q as <-. exact C'.
    + rewrite C'. apply CD. congruence.
  - rewrite C by assumption. apply CD. rewrite <- O; assumption.
Qed.
Lemma get_Y_rdy w i4 s : cdI s -> y_rdy (get_Y P o w i4 s) w i4.
Proof.
  intros CD. destruct (get_Y_facts w i4 s CD) as (_ & D & _ & _ & _ & E). split; [exact D|]. intros SV.
  destruct E as [(O' & _)|(O' & _ & _ & _ & Q)]; [exact O' | rewrite O'; now apply Q].
Qed.
Lemma get_Y_rdy_other w w' i4 s : cdI s -> y_rdy s w' i4 -> y_rdy (get_Y P o w i4 s) w' i4.
Proof.
  intros CD R. destruct (yk_dec w' w) as [->|N]; [now apply get_Y_rdy|].
  destruct (get_Y_facts w i4 s CD) as (F & _ & O & _). destruct R as [D SV]. split.
  - rewrite dirty_false in *. intros d ID. rewrite F by now left. now apply D.
  - intros K. rewrite O by assumption. now apply SV.
Qed.
Lemma yI_Y w i4 s : yI s -> yI (get_Y P o w i4 s).
Proof.
  intros (CD & A & B). pose proof (calm_Y w i4 s) as (X & _ & _).
  destruct (get_Y_facts w i4 s CD) as (F & D & O & C & Y & E).
  refine (conj (cdI_Y w i4 s CD) (conj _ _)).
  - intros SV w' i' Q. rewrite (mus_sx s) by exact X.
    assert (SL : slot o i4 = i4) by (unfold slot; now rewrite SV).
    destruct (yk_dec w' w) as [->|N]; [destruct (Nat.eq_dec i' i4) as [->|N]|].
    + rewrite SL in E. destruct E as [(_ & _ & E)|(_ & _ & E & DD & _)]; [exact E|]. rewrite E. now apply A.
    + rewrite Y by (right; congruence). apply (A SV). rewrite dirty_false in *. intros d ID.
      rewrite <- F by (now right). now apply Q.
    + rewrite Y by (now left). apply (A SV). rewrite dirty_false in *. intros d ID.
      rewrite <- F by (now left). now apply Q.
  - intros SV w' k O' Q. rewrite (mus_sx s) by exact X.
    assert (SL : slot o i4 = 0) by (unfold slot; now rewrite SV).
    destruct (yk_dec w' w) as [->|N].
    + rewrite SL in E. destruct E as [(E1 & _ & E)|(E1 & _ & E & DD & EO)].
      * rewrite E1 in O'. injection O' as <-. exact E.
      * rewrite E1, (EO SV) in O'. injection O' as <-. rewrite E. apply (B SV); auto.
    + rewrite Y by (now left). rewrite O in O' by assumption. apply (B SV); [assumption|].
      rewrite dirty_false in *. intros d ID. rewrite <- F by (now left). now apply Q.
Qed.

(** * The invariant of the unsaved quantities *)
Record core (s : st) : Prop := { c_opt : optI s; c_sub : subI s; c_chap : chapI s; c_beam : beamI s; c_utau : utauI s; c_y : yI s }.
Lemma core_x s s' : (forall t, t <> Tx -> keeps t s s') -> core s -> core s'.
Proof.
  intros K [A B C D E F]. split.
  - eapply optI_keeps; [apply K; discriminate | exact A].
  - eapply subI_keeps; [|apply K; discriminate | exact B]. intros l d _ H.
    destruct (K To ltac:(discriminate)) as (_ & _ & FF & _). rewrite FF in H by reflexivity. exact H.
  - eapply chapI_keeps; [apply K; discriminate | exact C].
  - eapply beamI_keeps; [apply K; discriminate | exact D].
  - eapply utauI_keeps; [apply K; discriminate | exact E].
  - eapply yI_keeps; [apply K; discriminate | exact F].
Qed.
Lemma core_put c v s : cfam c = Tx -> core s -> core (put c v s).
Proof. intros E. apply core_x. intros t N. apply keeps_put. congruence. Qed.
Lemma core_clear f ds s : ffam f = Tx -> core s -> core (clear f ds s).
Proof. intros E. apply core_x. intros t N. apply keeps_clear. congruence. Qed.
Lemma U_put c v s : U s -> U (put c v s).
Proof. intros H. exact H. Qed.
Lemma U_clear f ds s : ffam f <> Tb -> U s -> U (clear f ds s).
Proof. intros E. apply U_keeps. now apply keeps_clear. Qed.
Lemma core_opt l s : core s -> core (update_opt_props P o l s).
Proof.
  intros [A B C D E F]. split.
  - now apply optI_opt.
  - now apply subI_opt.
  - eapply chapI_keeps; [apply keeps_opt; discriminate | exact C].
  - eapply beamI_keeps; [apply keeps_opt; discriminate | exact D].
  - eapply utauI_keeps; [apply keeps_opt; discriminate | exact E].
  - eapply yI_keeps; [apply keeps_opt; discriminate | exact F].
Qed.
Lemma U_opt l s : U s -> U (update_opt_props P o l s).
Proof. apply U_keeps. apply keeps_opt. discriminate. Qed.
Lemma core_Y w i4 s : core s -> core (get_Y P o w i4 s).
Proof.
  intros [A B C D E F]. split.
  - eapply optI_keeps; [apply keeps_Y; discriminate | exact A].
  - eapply subI_keeps; [|apply keeps_Y; discriminate | exact B]. intros l d _ H.
    destruct (keeps_Y To w i4 s ltac:(discriminate)) as (_ & _ & FF & _). rewrite FF in H by reflexivity. exact H.
  - eapply chapI_keeps; [apply keeps_Y; discriminate | exact C].
  - eapply beamI_keeps; [apply keeps_Y; discriminate | exact D].
  - eapply utauI_keeps; [apply keeps_Y; discriminate | exact E].
  - now apply yI_Y.
Qed.
Lemma U_Y w i4 s : U s -> U (get_Y P o w i4 s).
Proof. apply U_keeps. apply keeps_Y. discriminate. Qed.
Lemma core_utaus s : core s -> core (update_utaus P o s).
Proof.
  intros [A B C D E F]. split.
  - eapply optI_keeps; [apply keeps_utaus; discriminate | exact A].
  - eapply subI_keeps; [|apply keeps_utaus; discriminate | exact B]. intros l d _ H.
    destruct (keeps_utaus To s ltac:(discriminate)) as (_ & _ & FF & _). rewrite FF in H by reflexivity. exact H.
  - eapply chapI_keeps; [apply keeps_utaus; discriminate | exact C].
  - eapply beamI_keeps; [apply keeps_utaus; discriminate | exact D].
  - now apply utauI_utaus.
  - eapply yI_keeps; [apply keeps_utaus; discriminate | exact F].
Qed.
Lemma U_utaus s : U s -> U (update_utaus P o s).
Proof. apply U_keeps. apply keeps_utaus. discriminate. Qed.
(** Down to which level the beam is right after update_beam_params. *)
Definition b_rdy (s : st) (m : nat) : Prop := o_solar o = true -> forall j, j < m -> clean s j.
Lemma core_beam l s : core s -> l <= n -> (l = n \/ U s) ->
  core (update_beam_params P o l s) /\ U (update_beam_params P o l s) /\
  b_rdy (update_beam_params P o l s) (if l =? n then l else S l).
Proof.
  intros [A B C D E F] Hl HU. destruct (o_solar o) eqn:SO.
  - destruct (beam_update_ok l s A B C D Hl HU SO) as (A' & B' & C' & D' & U' & R & _).
    refine (conj _ (conj U' (fun _ => R))). split; try assumption.
    + eapply utauI_keeps; [apply keeps_beam; discriminate | exact E].
    + eapply yI_keeps; [apply keeps_beam; discriminate | exact F].
  - assert (ES : update_beam_params P o l s = s) by (unfold update_beam_params; rewrite SO; reflexivity).
    rewrite ES. refine (conj _ (conj _ _)); [split; assumption | intros K; congruence | intros K; congruence].
Qed.
Lemma b_fresh s m : core s -> o_solar o = true -> m <= n -> b_rdy s m -> down_ok s m.
Proof. intros C SO Hm R. apply (c_beam s C SO m Hm). now apply R. Qed.
Lemma b_rdy_calm s s' m : calm s s' -> b_rdy s m -> b_rdy s' m.
Proof. intros C R SO j Hj. unfold clean. eapply calm_clean; [exact C | now apply R]. Qed.
Lemma utaus_cl_calm s s' : calm s s' -> utaus_cl s -> utaus_cl s'.
Proof. intros C H D. eapply calm_clean; eauto. Qed.
End Code.
End Inv.
