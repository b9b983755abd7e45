(** Setters, and histories of calls. *)
From Coq Require Import List Bool PeanoNat Lia.
From Verif Require Import CacheModel CacheSpec CacheProofs CacheSteps CacheIdeal.
Import ListNotations.
Open Scope nat_scope.

Section Hist.
Context {V : Type} (P : physics V) (o : opts).
Notation st := (@st V).
Notation n := (o_n o).

(** * What does not read an input does not change with it *)
Definition six (d : dep) : Prop := In d [COEF; COEF_L; OMEGA; OMEGA_L; LTAU; LTAU_L].
Definition agr (L : nat -> Prop) (x x' : inp V) : Prop :=
  (forall d l, six d -> L l -> x' d l = x d l) /\ (forall d l, In d chap_deps -> x' d l = x d l).
Lemma agr_le (L L' : nat -> Prop) x x' : agr L x x' -> (forall l, L' l -> L l) -> agr L' x x'.
Proof. intros [A B] H. split; [intros; apply A; auto | exact B]. Qed.
Ltac six_in := unfold six; cbn; tauto.
Lemma t_opt_agr x x' l : (forall d, six d -> x' d l = x d l) ->
  t_coef P o x' l = t_coef P o x l /\ t_omega P o x' l = t_omega P o x l /\ t_ltau P o x' l = t_ltau P o x l /\
  t_coef_l P o x' l = t_coef_l P o x l /\ t_omega_l P o x' l = t_omega_l P o x l /\ t_ltau_l P o x' l = t_ltau_l P o x l.
Proof.
  intros A. assert (A1 := A COEF ltac:(six_in)). assert (A2 := A COEF_L ltac:(six_in)). assert (A3 := A OMEGA ltac:(six_in)).
  assert (A4 := A OMEGA_L ltac:(six_in)). assert (A5 := A LTAU ltac:(six_in)). assert (A6 := A LTAU_L ltac:(six_in)).
  unfold t_coef, t_omega, t_ltau, t_coef_l, t_omega_l, t_ltau_l, t_calc, t_f, t_f_l. rewrite A1, A2, A3, A4, A5, A6.
  refine (conj _ (conj _ (conj _ (conj _ (conj _ _))))); reflexivity.
Qed.
Lemma t_chap_agr L x x' : agr L x x' -> t_chap P x' = t_chap P x.
Proof. intros [_ B]. unfold t_chap. rewrite !B by (cbn; tauto). reflexivity. Qed.
Lemma t_btau_agr m x x' : agr (fun l => l < m) x x' -> t_btau P o x' m = t_btau P o x m /\ t_btau_l P o x' m = t_btau_l P o x m.
Proof.
  induction m as [|m IH]; intros A; [now split|].
  destruct (IH (agr_le _ (fun l => l < m) x x' A ltac:(cbv beta; intros; lia))) as [B C].
  assert (T : forall l, l < S m -> t_ltau P o x' l = t_ltau P o x l /\ t_ltau_l P o x' l = t_ltau_l P o x l).
  { intros l Hl. pose proof (t_opt_agr x x' l (fun d H => proj1 A d l H Hl)) as (_ & _ & E1 & _ & _ & E2). now split. }
  assert (M1 : map (t_ltau P o x') (seq 0 (S m)) = map (t_ltau P o x) (seq 0 (S m))).
  { apply map_ext_in. intros l I. apply in_seq in I. apply T. lia. }
  assert (M2 : map (t_ltau_l P o x') (seq 0 (S m)) = map (t_ltau_l P o x) (seq 0 (S m))).
  { apply map_ext_in. intros l I. apply in_seq in I. apply T. lia. }
  destruct (T m (Nat.lt_succ_diag_r m)) as [T1 T2].
  cbn [t_btau t_btau_l]. rewrite M1, M2, B, C, T1, T2, (t_chap_agr _ x x' A).
  destruct A as [_ A]. rewrite (A MU_0) by (cbn; tauto). now split.
Qed.
Lemma t_btran_agr m x x' : agr (fun l => l < m) x x' -> t_btran P o x' m = t_btran P o x m /\ t_btran_l P o x' m = t_btran_l P o x m.
Proof.
  intros A. destruct (t_btau_agr m x x' A) as [B C].
  assert (E : t_btran P o x' m = t_btran P o x m) by (unfold t_btran; destruct m; [reflexivity | now rewrite B]).
  split; [exact E|]. unfold t_btran_l. destruct m; [reflexivity | now rewrite C, E].
Qed.
Lemma t_as_agr l x x' : agr (fun j => j <= l) x x' -> t_as P o x' l = t_as P o x l /\ t_as_l P o x' l = t_as_l P o x l /\
  t_atran P o x' l = t_atran P o x l /\ t_atran_l P o x' l = t_atran_l P o x l.
Proof.
  intros A.
  destruct (t_btau_agr (S l) x x' (agr_le _ (fun j => j < S l) x x' A ltac:(cbv beta; intros; lia))) as [B1 B2].
  destruct (t_btau_agr l x x' (agr_le _ (fun j => j < l) x x' A ltac:(cbv beta; intros; lia))) as [B3 B4].
  pose proof (t_opt_agr x x' l (fun d H => proj1 A d l H (Nat.le_refl l))) as (_ & _ & T1 & _ & _ & T2).
  assert (E1 : t_as P o x' l = t_as P o x l) by (unfold t_as; now rewrite B1, B3, T1).
  assert (E2 : t_as_l P o x' l = t_as_l P o x l) by (unfold t_as_l; now rewrite B2, B4, T1, T2, E1).
  assert (E3 : t_atran P o x' l = t_atran P o x l) by (unfold t_atran; now rewrite T1, E1).
  assert (E4 : t_atran_l P o x' l = t_atran_l P o x l) by (unfold t_atran_l; now rewrite T1, T2, E1, E2, E3).
  now repeat split.
Qed.

(** * A new or cleared handle *)
Lemma dirty_untouched (s : st) f d ds : untouched s -> dirty s f (d :: ds) = true.
Proof. intros H. unfold dirty. cbn [existsb]. now rewrite H. Qed.
Lemma untouched_core_any (o' : opts) s : base P s -> untouched s -> core P o' s /\ U o' s.
Proof.
  intros (B1 & B2 & B3 & B4 & B5) H. split.
  - split.
    + intros D l. cbv zeta. rewrite !H. refine (conj _ (conj _ (conj _ _))); try discriminate. intros _.
      refine (conj _ (conj _ _)); discriminate.
    + intros D l d _ _. apply H.
    + intros D. unfold chap_deps in D. rewrite dirty_untouched in D by exact H. discriminate.
    + intros SO m Hm Q. destruct m as [|m].
      * split; [|intros; lia]. intros k Hk. replace k with 0 by lia. unfold lev_ok. cbn [t_btau t_btran t_btau_l t_btran_l].
        refine (conj B1 (conj B2 (fun _ => conj B3 B4))).
      * specialize (Q 0 ltac:(lia)). unfold clean, beam_deps, opt_deps in Q. cbn [app] in Q.
        rewrite dirty_untouched in Q by exact H. discriminate.
    + unfold utauI. cbv zeta. rewrite !H. refine (conj _ (conj _ _)); discriminate.
    + refine (conj B5 (conj _ _)).
      * intros _ w i4 D. destruct w; cbn [y_deps] in D; rewrite dirty_untouched in D by exact H; discriminate.
      * intros _ w k _ D. destruct w; cbn [y_deps] in D; rewrite dirty_untouched in D by exact H; discriminate.
  - intros SO i j _ _ _. unfold beam_deps, opt_deps. cbn [app]. now apply dirty_untouched.
Qed.
Lemma untouched_core s : base P s -> untouched s -> core P o s /\ U o s.
Proof. apply untouched_core_any. Qed.
Lemma untouched_saved (o' : opts) x vf sv d s : untouched s -> saved P o' x vf sv d [] s.
Proof.
  intros H f _. destruct f; cbn [entry]; try exact Logic.I; intros;
    match goal with D : dirty _ _ _ = false |- _ => exfalso; revert D end;
    unfold bound_deps, total_deps, layer_deps, local_deps, beam_deps, opt_deps, ph_deps; cbn [app].
  - rewrite dirty_untouched by exact H. discriminate.
  - rewrite dirty_untouched by exact H. discriminate.
  - destruct k; cbn [app]; rewrite dirty_untouched by exact H; discriminate.
  - rewrite dirty_untouched by exact H. discriminate.
  - rewrite dirty_untouched by exact H. discriminate.
Qed.
Lemma fresh_base x vf junk : base P (fresh P x vf junk).
Proof. unfold base. refine (conj eq_refl (conj eq_refl (conj eq_refl (conj eq_refl _)))). intros w k E. discriminate. Qed.
Lemma fresh_untouched x vf junk : untouched (fresh P x vf junk).
Proof. intros f d. reflexivity. Qed.
Lemma clear_base s : base P s -> base P (clear_saved s).
Proof. auto. Qed.

(** * Setters *)
Section Set_one.
Variable (b : dep) (a e : nat) (v : nat -> V) (s : st).
Let s' : st := set_input o b a e v s.
Definition rng (f : fid) : bool := if per_layer b then hit a e f else hit 0 n f.
Lemma set_sfl f d : sfl s' f d = sfl s f d || (rng f && mem d (raises o b)).
Proof. unfold s', set_input, rng. destruct (per_layer b); reflexivity. Qed.
Lemma set_sca : sca s' = sca s. Proof. unfold s', set_input. destruct (per_layer b); reflexivity. Qed.
Lemma set_sord : sord s' = sord s. Proof. unfold s', set_input. destruct (per_layer b); reflexivity. Qed.
Lemma set_svf : svf s' = svf s. Proof. unfold s', set_input. destruct (per_layer b); reflexivity. Qed.
Lemma set_other d l : d <> b -> sx s' d l = sx s d l.
Proof.
  intros N. unfold s', set_input. assert (E : dep_eqb b d = false).
  { destruct (dep_eqb b d) eqn:E; [apply dep_eqb_eq in E; congruence | reflexivity]. }
  destruct (per_layer b); cbn [set_deps sx]; now rewrite E.
Qed.
Lemma set_out l : per_layer b = true -> (a <=? l) && (l <? e) = false -> sx s' b l = sx s b l.
Proof. intros PL R. unfold s', set_input. rewrite PL. cbn [set_deps sx]. rewrite R. now rewrite andb_false_r. Qed.
Lemma set_falls f d : sfl s' f d = false -> sfl s f d = false.
Proof. rewrite set_sfl. intros H. now apply orb_false_iff in H. Qed.
Lemma set_clean f ds : dirty s' f ds = false -> dirty s f ds = false.
Proof. rewrite !dirty_false. intros H d I. apply set_falls. now apply H. Qed.
Lemma dep_dec (p q : dep) : {p = q} + {p <> q}.
Proof. destruct (dep_eqb p q) eqn:E; [left; now apply dep_eqb_eq | right; intros ->; now rewrite dep_eqb_refl in E]. Qed.
(** An input that could have raised a bit which is down has not changed. *)
Lemma unch f d' d l : sfl s' f d' = false -> mem d' (raises o d) = true ->
  (per_layer d = true -> a <= l -> l < e -> hit a e f = true) -> (per_layer d = false -> hit 0 n f = true) ->
  sx s' d l = sx s d l.
Proof.
  intros F M H1 H2. destruct (dep_dec d b) as [->|N]; [|now apply set_other].
  rewrite set_sfl in F. apply orb_false_iff in F. destruct F as [_ F]. rewrite M, andb_true_r in F. unfold rng in F.
  destruct (per_layer b) eqn:PL; [|rewrite H2 in F by reflexivity; discriminate].
  apply set_out; [exact PL|]. apply not_true_is_false. intros R. apply andb_true_iff in R. destruct R as [R1 R2].
  apply Nat.leb_le in R1. apply Nat.ltb_lt in R2. rewrite H1 in F by (reflexivity || assumption). discriminate.
Qed.
Lemma raises_self d : mem d (raises o d) = true.
Proof. destruct d; reflexivity. Qed.
Lemma hit_layer l : a <= l -> l < e -> (a <=? l) && (l <? e) = true.
Proof. intros H1 H2. apply andb_true_iff. split; [now apply Nat.leb_le | now apply Nat.ltb_lt]. Qed.
Lemma hit_n l : l < n -> (0 <=? l) && (l <? n) = true.
Proof. intros H. now apply Nat.ltb_lt. Qed.

Lemma set_optI : optI P o s -> optI P o s'.
Proof.
  intros I D l. specialize (I D l). cbv zeta in *. rewrite set_sca. destruct I as (A & B & C & L).
  assert (UN : forall d' d, sfl s' (FOpt l) d' = false -> mem d' (raises o d) = true -> per_layer d = true -> sx s' d l = sx s d l).
  { intros d' d F M PL. apply (unch (FOpt l) d' d l F M); [intros _ H1 H2; now apply hit_layer | congruence]. }
  assert (MO : mem OMEGA (raises o COEF) = true) by (cbn; rewrite D; reflexivity).
  assert (ML : mem LTAU (raises o COEF) = true) by (cbn; rewrite D; reflexivity).
  assert (MLO : mem LTAU (raises o OMEGA) = true) by (cbn; rewrite D; reflexivity).
  unfold t_coef_l, t_omega_l, t_ltau_l, t_coef, t_omega, t_ltau, t_f, t_f_l in *. rewrite D in *.
  refine (conj _ (conj _ (conj _ _))).
  - intros F. rewrite (UN COEF COEF F) by reflexivity. apply A. now apply set_falls.
  - intros F. rewrite (UN OMEGA OMEGA F), (UN OMEGA COEF F) by (reflexivity || exact MO). apply B. now apply set_falls.
  - intros F. rewrite (UN LTAU LTAU F), (UN LTAU COEF F), (UN LTAU OMEGA F) by (reflexivity || assumption). apply C. now apply set_falls.
  - intros K. destruct (L K) as (A' & B' & C').
    assert (M1 : mem OMEGA_L (raises o COEF_L) = true) by (cbn; rewrite D; reflexivity).
    assert (M2 : mem LTAU_L (raises o COEF_L) = true) by (cbn; rewrite D; reflexivity).
    assert (M3 : mem LTAU_L (raises o OMEGA_L) = true) by (cbn; rewrite D; reflexivity).
    refine (conj _ (conj _ _)).
    + intros F G. rewrite (UN COEF COEF F), (UN COEF_L COEF_L G) by reflexivity. apply A'; now apply set_falls.
    + intros F G. rewrite (UN OMEGA OMEGA F), (UN OMEGA COEF F), (UN OMEGA_L OMEGA_L G), (UN OMEGA_L COEF_L G) by (reflexivity || assumption).
      apply B'; now apply set_falls.
    + intros F G. rewrite (UN LTAU LTAU F), (UN LTAU COEF F), (UN LTAU OMEGA F), (UN LTAU_L LTAU_L G), (UN LTAU_L COEF_L G), (UN LTAU_L OMEGA_L G)
        by (reflexivity || assumption). apply C'; now apply set_falls.
Qed.
Lemma set_subI : subI o s -> subI o s'.
Proof.
  intros I D l d ID. rewrite !set_sfl. intros H. apply orb_true_iff in H. apply orb_true_iff. destruct H as [H|H].
  - left. now apply (I D).
  - right. exact H.
Qed.
Lemma glob_unch f d l ds : (forall a e, hit a e f = true) -> dirty s' f ds = false -> In d ds -> sx s' d l = sx s d l.
Proof.
  intros H D I. rewrite dirty_false in D. apply (unch f d d l (D d I) (raises_self d)); intros; apply H.
Qed.
Lemma set_chapI : chapI P s -> chapI P s'.
Proof.
  intros I D. rewrite set_sca. rewrite I by now apply set_clean.
  assert (E : forall d, In d chap_deps -> sx s' d 0 = sx s d 0) by (intros d ID; now apply (glob_unch FChap d 0 chap_deps)).
  unfold t_chap. rewrite !E by (cbn; tauto). reflexivity.
Qed.
Lemma set_agr m : m <= n -> m <> 0 -> (forall j, j < m -> clean s' j) -> agr (fun l => l < m) (sx s) (sx s').
Proof.
  intros Hm N0 Q. split.
  - intros d l SX Hl. specialize (Q l Hl). unfold clean in Q. rewrite dirty_false in Q.
    assert (I : In d beam_deps) by (unfold beam_deps, opt_deps; repeat (apply in_or_app; left); exact SX).
    apply (unch (FBeam l) d d l (Q d I) (raises_self d)).
    + intros _ H1 H2. now apply hit_layer.
    + intros _. apply hit_n. lia.
  - intros d l CD. specialize (Q 0 ltac:(lia)). unfold clean in Q. rewrite dirty_false in Q.
    assert (I : In d beam_deps) by (unfold beam_deps; apply in_or_app; right; apply in_or_app; left; exact CD).
    apply (unch (FBeam 0) d d l (Q d I) (raises_self d)).
    + intros PL. destruct CD as [<-|[<-|[<-|[]]]]; discriminate PL.
    + intros _. apply hit_n. lia.
Qed.
Lemma set_beamI : beamI P o s -> beamI P o s'.
Proof.
  intros I SO m Hm Q. specialize (I SO m Hm (fun j Hj => set_clean _ _ (Q j Hj))).
  destruct (Nat.eq_dec m 0) as [->|N0].
  - destruct I as [A _]. split; [|intros; lia]. intros k Hk. specialize (A k Hk). assert (k = 0) by lia. subst k.
    unfold lev_ok in *. cbv zeta in *. rewrite set_sca. exact A.
  - pose proof (set_agr m Hm N0 Q) as AG. destruct I as [A B]. split.
    + intros k Hk. specialize (A k Hk). unfold lev_ok in *. cbv zeta in *. rewrite set_sca.
      assert (AG' := agr_le _ (fun l => l < k) _ _ AG ltac:(cbv beta; intros; lia)).
      destruct (t_btau_agr k _ _ AG') as [E1 E2]. destruct (t_btran_agr k _ _ AG') as [E3 E4]. rewrite E1, E2, E3, E4. exact A.
    + intros l Hl. specialize (B l Hl). unfold slab_ok in *. cbv zeta in *. rewrite set_sca.
      assert (AG' := agr_le _ (fun j => j <= l) _ _ AG ltac:(cbv beta; intros; lia)).
      destruct (t_as_agr l _ _ AG') as (E1 & E2 & E3 & E4). rewrite E1, E2, E3, E4. exact B.
Qed.
Lemma set_utauI : utauI P o s -> utauI P o s'.
Proof.
  intros (A & B & C). unfold utauI. cbv zeta. rewrite set_sca.
  assert (UN : forall d' d l, sfl s' FUtaus d' = false -> mem d' (raises o d) = true -> sx s' d l = sx s d l).
  { intros d' d l F M. apply (unch FUtaus d' d l F M); reflexivity. }
  assert (ML : sfl s' FUtaus LTAU = false -> map (sx s' LTAU) (layers o) = map (sx s LTAU) (layers o)).
  { intros F. apply map_ext. intros l. now apply (UN LTAU). }
  unfold t_utau, t_lev_ in *. refine (conj _ (conj _ _)).
  - intros F. rewrite ML by exact F. apply A. now apply set_falls.
  - intros F G. rewrite ML by exact F. rewrite (UN UTAUS UTAUS 0 G) by reflexivity. apply B; now apply set_falls.
  - intros D F G H. rewrite ML by exact F. rewrite (UN UTAUS UTAUS 0 G) by reflexivity.
    rewrite (map_ext (fun l => dm_f P (sx s' COEF l)) (fun l => dm_f P (sx s COEF l))) by (intros l; now rewrite (UN COEF COEF l H)).
    rewrite (map_ext (sx s' OMEGA) (sx s OMEGA)) by (intros l; apply (UN LTAU OMEGA l F); cbn; now rewrite D).
    apply C; try assumption; now apply set_falls.
Qed.
Lemma set_mus w i4 : dirty s' (FY w i4) (y_deps o w) = false -> mus P o s' w = mus P o s w.
Proof.
  intros D. assert (UN : forall d, In d (y_deps o w) -> sx s' d 0 = sx s d 0) by (intros d I; now apply (glob_unch (FY w i4) d 0 (y_deps o w))).
  destruct w; cbn [mus y_deps] in *.
  - destruct (o_sfi o); [reflexivity|]. rewrite UN by (cbn; tauto). reflexivity.
  - rewrite UN by (cbn; tauto). reflexivity.
  - rewrite UN by (cbn; tauto). reflexivity.
Qed.
Lemma set_yI : yI P o s -> yI P o s'.
Proof.
  intros (A & B & C). refine (conj _ (conj _ _)).
  - intros w k. rewrite set_sord, set_sca. apply A.
  - intros SV w i4 D. rewrite set_sca, (set_mus w i4 D). apply (B SV). now apply set_clean.
  - intros SV w k O D. rewrite set_sord in O. rewrite set_sca, (set_mus w k D). apply (C SV); [exact O | now apply set_clean].
Qed.
Lemma set_core : core P o s -> core P o s'.
Proof.
  intros [A B C D E F]. split; [now apply set_optI | now apply set_subI | now apply set_chapI | now apply set_beamI | now apply set_utauI | now apply set_yI].
Qed.
Lemma set_base : base P s -> base P s'.
Proof.
  intros (A & B & C & D & E). unfold base. rewrite set_sca. refine (conj A (conj B (conj C (conj D _)))).
  intros w k. rewrite set_sord, set_sca. apply E.
Qed.
Lemma set_U : (per_layer b = true -> e = n) -> U o s -> U o s'.
Proof.
  intros R I SO i j Hij Hj D. rewrite dirty_true in D. destruct D as (d & ID & D). rewrite set_sfl in D.
  apply orb_true_iff in D. destruct D as [D|D].
  - assert (Q : dirty s (FBeam j) beam_deps = true).
    { apply (I SO i j Hij Hj). apply dirty_true. eauto. }
    rewrite dirty_true in *. destruct Q as (d' & ID' & Q). exists d'. split; [exact ID'|]. rewrite set_sfl, Q. reflexivity.
  - apply dirty_true. exists d. split; [exact ID|]. rewrite set_sfl. apply orb_true_iff. right.
    apply andb_true_iff in D. destruct D as [D1 D2]. rewrite D2, andb_true_r. unfold rng in *. cbn [hit] in *.
    destruct (per_layer b); apply andb_true_iff in D1; destruct D1 as [D1 D3]; apply andb_true_iff; split;
      rewrite ?Nat.leb_le, ?Nat.ltb_lt in *; try specialize (R eq_refl); lia.
Qed.
Lemma set_untouched : untouched s -> untouched s'.
Proof. intros H f d. now rewrite set_sfl, H. Qed.

(** * Saved results *)
Hypothesis LO : left_out o b = false.
Lemma lo_same d l : left_out o d = true -> sx s' d l = sx s d l.
Proof. intros K. apply set_other. intros ->. congruence. Qed.
Lemma mus_lo w : (w = Y0 -> sx s' MU_0 0 = sx s MU_0 0) -> i_mus P o (sx s') w = i_mus P o (sx s) w.
Proof.
  intros H. destruct w; cbn [i_mus].
  - rewrite (lo_same UMUS 0) by reflexivity. reflexivity.
  - now rewrite H.
  - apply lo_same. reflexivity.
Qed.
Lemma iY_lo w i4 : (w = Y0 -> sx s' MU_0 0 = sx s MU_0 0) -> i_Y P o (sx s') w i4 = i_Y P o (sx s) w i4.
Proof. intros H. unfold i_Y. now rewrite mus_lo. Qed.
Lemma in_ph_coef k : In COEF (ph_deps o k) /\ In COEF_L (ph_deps o k).
Proof. destruct k; cbn; tauto. Qed.
Definition mu_side (k : phk) : Prop := side2 k = Y0.
Lemma raw_agr vf k i4 l : sx s' COEF l = sx s COEF l -> sx s' COEF_L l = sx s COEF_L l -> (mu_side k -> sx s' MU_0 0 = sx s MU_0 0) ->
  i_raw P o (sx s') vf k i4 l = i_raw P o (sx s) vf k i4 l.
Proof.
  intros A B C. unfold i_raw.
  assert (M1 : side1 k = Y0 -> sx s' MU_0 0 = sx s MU_0 0) by (intros K; destruct k; discriminate K).
  rewrite (iY_lo (side1 k) i4 M1), (iY_lo (side2 k) i4 C), (mus_lo (side1 k) M1), (mus_lo (side2 k) C).
  unfold t_coef, t_coef_l, t_calc, t_f, t_f_l. rewrite A, B. reflexivity.
Qed.
Lemma mu_dep k : mu_side k -> In MU_0 (ph_deps o k).
Proof. unfold mu_side. destruct k; cbn; intros K; try discriminate K; tauto. Qed.
Lemma layer_unch (f : fid) l ds d j : (forall a e, hit a e f = (a <=? l) && (l <? e)) -> l < n -> dirty s' f ds = false -> In d ds ->
  (per_layer d = true -> j = l) -> sx s' d j = sx s d j.
Proof.
  intros H Hl D I J. rewrite dirty_false in D. apply (unch f d d j (D d I) (raises_self d)).
  - intros PL H1 H2. rewrite H. rewrite J in H1, H2 by exact PL. now apply hit_layer.
  - intros _. rewrite H. now apply hit_n.
Qed.
Lemma i_local_agr vf i4 l : sx s' COEF l = sx s COEF l -> sx s' COEF_L l = sx s COEF_L l -> sx s' OMEGA l = sx s OMEGA l -> sx s' OMEGA_L l = sx s OMEGA_L l ->
  i_local P o (sx s') vf i4 l = i_local P o (sx s) vf i4 l.
Proof.
  intros A B C D. unfold i_local, i_ph, i_sym.
  rewrite (raw_agr vf QQ i4 l A B) by discriminate. rewrite mus_lo by discriminate.
  unfold t_omega, t_omega_l, t_calc, t_f, t_f_l. rewrite A, B, C, D. reflexivity.
Qed.
Lemma i_layer_agr vf sv i4 l : big_save o = true -> agr (fun j => j <= l) (sx s) (sx s') ->
  (o_pade o = true -> sx s' PADE_PARAMS 0 = sx s PADE_PARAMS 0) ->
  i_layer P o (sx s') vf sv i4 l = i_layer P o (sx s) vf sv i4 l.
Proof.
  intros BS AG PP.
  assert (AC := fun d H => proj1 AG d l H (Nat.le_refl l)).
  destruct (t_opt_agr _ _ l AC) as (_ & T2 & T3 & _ & T5 & T6).
  destruct (t_as_agr l _ _ AG) as (S1 & S2 & S3 & S4).
  assert (EM : sx s' MU_0 0 = sx s MU_0 0) by (apply AG; cbn; tauto).
  assert (EC : sx s' COEF l = sx s COEF l) by (apply AC; six_in).
  assert (ECL : sx s' COEF_L l = sx s COEF_L l) by (apply AC; six_in).
  assert (EL := i_local_agr vf i4 l EC ECL (AC OMEGA ltac:(six_in)) (AC OMEGA_L ltac:(six_in))).
  assert (EP : i_ph P o (sx s') vf Q0 i4 l = i_ph P o (sx s) vf Q0 i4 l).
  { unfold i_ph, i_sym. now rewrite (raw_agr vf Q0 i4 l EC ECL (fun _ => EM)), T2. }
  assert (E0 : ifs P o (sx s' F_0 0) = ifs P o (sx s F_0 0)).
  { unfold ifs. destruct (o_solar o) eqn:SO; [|reflexivity]. apply lo_same. cbn. now rewrite BS, SO. }
  assert (ED : sx s' DOUB_D_TAU 0 = sx s DOUB_D_TAU 0) by (apply lo_same; exact BS).
  assert (EB : forall j, thm P o (sx s' LEVELS_B j) = thm P o (sx s LEVELS_B j)).
  { intros j. unfold thm. destruct (o_thermal o) eqn:TH; [|reflexivity]. apply lo_same. cbn. now rewrite BS, TH. }
  assert (EBL : forall j, thm P o (ifc P o (sx s' LEVELS_B_L j)) = thm P o (ifc P o (sx s LEVELS_B_L j))).
  { intros j. unfold thm, ifc. destruct (o_thermal o) eqn:TH, (o_calc o) eqn:CA; try reflexivity. apply lo_same. cbn. now rewrite BS, TH, CA. }
  assert (EU : sx s' UMUS 0 = sx s UMUS 0) by (apply lo_same; reflexivity).
  assert (EPP : (if o_pade o then sx s' PADE_PARAMS 0 else none P) = (if o_pade o then sx s PADE_PARAMS 0 else none P)).
  { destruct (o_pade o); [now apply PP | reflexivity]. }
  unfold i_layer. rewrite T2, T3, T5, T6, S1, S2, S3, S4, EL, EP, E0, ED, !EB, !EBL, EU, EPP, EC, mus_lo by discriminate. reflexivity.
Qed.
Lemma i_total_agr vf d sv i4 : big_save o = true -> agr (fun j => j < n) (sx s) (sx s') ->
  (o_pade o = true -> sx s' PADE_PARAMS 0 = sx s PADE_PARAMS 0) ->
  i_total P o (sx s') vf d sv i4 = i_total P o (sx s) vf d sv i4.
Proof.
  intros BS AG PP. unfold i_total.
  assert (E : forall ls, (forall l, In l ls -> l < n) -> mapO (i_turn P o (sx s') vf sv i4) ls = mapO (i_turn P o (sx s) vf sv i4) ls).
  { induction ls as [|l ls IH]; intros H; [reflexivity|]. cbn [mapO].
    assert (Hl : l < n) by (apply H; now left).
    rewrite IH by (intros; apply H; now right). f_equal. unfold i_turn.
    rewrite (i_layer_agr vf sv i4 l BS (agr_le _ (fun j => j <= l) _ _ AG ltac:(cbv beta; intros; lia)) PP).
    destruct (t_btran_agr l _ _ (agr_le _ (fun j => j < l) _ _ AG ltac:(cbv beta; intros; lia))) as [E1 E2]. now rewrite E1, E2. }
  rewrite E; [reflexivity|]. intros l. apply (in_layers o).
Qed.
Lemma layer_six d : six d -> In d (layer_deps o).
Proof. intros H. unfold layer_deps, opt_deps. apply in_or_app; left. apply in_or_app; left. exact H. Qed.
Lemma layer_chap d : In d chap_deps -> In d (layer_deps o).
Proof. intros H. unfold layer_deps, beam_deps. apply in_or_app; right. apply in_or_app; left. apply in_or_app; right. apply in_or_app; now left. Qed.
Lemma layer_pade : o_pade o = true -> In PADE_PARAMS (layer_deps o).
Proof. intros H. unfold layer_deps. rewrite H. apply in_or_app; right. apply in_or_app; right. apply in_or_app; right. apply in_or_app; right. cbn. tauto. Qed.
Lemma per_six d : six d -> per_layer d = true.
Proof. unfold six. cbn. intros H. repeat (destruct H as [<-|H]; [reflexivity|]). destruct H. Qed.
Lemma per_chap d : In d chap_deps -> per_layer d = false.
Proof. cbn. intros H. repeat (destruct H as [<-|H]; [reflexivity|]). destruct H. Qed.
Lemma set_entry f sv d : (o_save_layer o = true -> per_layer b = true -> e = n) -> entry P o (sx s) (svf s) sv d f s -> entry P o (sx s') (svf s') sv d f s'.
Proof.
  intros RE E. rewrite set_svf. destruct f; cbn [entry] in *; try exact E; rewrite set_sca.
  - (* boundary sources *)
    intros D. rewrite E by now apply set_clean.
    assert (UN : forall d l, In d bound_deps -> sx s' d l = sx s d l) by (intros d1 l I; now apply (glob_unch (FBound i4) d1 l bound_deps)).
    assert (AG : agr (fun j => j < n) (sx s) (sx s')).
    { split.
      - intros d1 l H _. apply UN. unfold bound_deps, opt_deps. apply in_or_app; left. apply in_or_app; left. exact H.
      - intros d1 l H. apply UN. unfold bound_deps, beam_deps. apply in_or_app; right. apply in_or_app; left. apply in_or_app; right. apply in_or_app; now left. }
    destruct (t_btran_agr n _ _ AG) as [T1 T2].
    assert (IT : forall d1 l, In d1 [F_ISO_TOP; F_ISO_BOT; F_0; MU_0; BRDF; BRDF_L] -> sx s' d1 l = sx s d1 l).
    { intros d1 l H. apply UN. unfold bound_deps. apply in_or_app; right. apply in_or_app; right. exact H. }
    assert (C1 : forall d1, left_out o d1 = o_calc o -> ifc P o (sx s' d1 0) = ifc P o (sx s d1 0)).
    { intros d1 H. unfold ifc. destruct (o_calc o) eqn:CA; [|reflexivity]. now apply lo_same. }
    assert (B1 : thm P o (sx s' SURFACE_B 0) = thm P o (sx s SURFACE_B 0)).
    { unfold thm. destruct (o_thermal o) eqn:TH; [|reflexivity]. apply lo_same. exact TH. }
    assert (B2 : thm P o (ifc P o (sx s' SURFACE_B_L 0)) = thm P o (ifc P o (sx s SURFACE_B_L 0))).
    { unfold thm, ifc. destruct (o_thermal o) eqn:TH, (o_calc o) eqn:CA; try reflexivity. apply lo_same. cbn. now rewrite TH, CA. }
    unfold i_bound. rewrite T1, T2, B1, B2.
    rewrite (IT F_ISO_TOP 0), (IT F_ISO_BOT 0), (IT F_0 0), (IT MU_0 0), (IT BRDF 0), (IT BRDF_L 0) by (cbn; tauto).
    rewrite (C1 F_ISO_TOP_L), (C1 F_ISO_BOT_L) by reflexivity.
    rewrite (lo_same UMUS 0) by reflexivity. reflexivity.
  - (* totals *)
    intros SV D. rewrite <- E by (assumption || now apply set_clean).
    assert (UN : forall d l, In d (total_deps o) -> sx s' d l = sx s d l) by (intros d1 l I; now apply (glob_unch (FTotal i4) d1 l (total_deps o))).
    apply i_total_agr; [now apply save_big_total | |].
    + split; [intros d1 l H _; apply UN; now apply layer_six | intros d1 l H; apply UN; now apply layer_chap].
    + intros PA. apply UN. now apply layer_pade.
  - (* phase functions *)
    intros SV Hl D. rewrite E by (assumption || now apply set_clean). unfold i_sym.
    assert (UN : forall d1 j, In d1 (ph_deps o k) -> (per_layer d1 = true -> j = l) -> sx s' d1 j = sx s d1 j).
    { intros d1 j I J. apply (layer_unch (FPh k i4 l) l (ph_deps o k)); auto. }
    rewrite (raw_agr (svf s) k i4 l); [reflexivity| | |].
    + apply UN; [apply in_ph_coef | reflexivity].
    + apply UN; [apply in_ph_coef | reflexivity].
    + intros K. apply UN; [now apply mu_dep | discriminate].
  - (* local matrices *)
    intros SV Hl D. rewrite <- E by (assumption || now apply set_clean).
    assert (UN : forall d1, In d1 [COEF; COEF_L; OMEGA; OMEGA_L] -> sx s' d1 l = sx s d1 l).
    { intros d1 I. apply (layer_unch (FLocal i4 l) l (local_deps o)); auto.
      unfold local_deps. cbn [ph_deps app]. cbn in I. destruct I as [<-|[<-|[<-|[<-|[]]]]]; cbn; try tauto; right; right; apply in_or_app; right; cbn; tauto. }
    apply i_local_agr; apply UN; cbn; tauto.
  - (* layers *)
    intros SV Hl D. rewrite <- E by (assumption || now apply set_clean).
    assert (DF := D). rewrite dirty_false in DF.
    apply i_layer_agr; [now apply save_big_layer | |].
    + split.
      * intros d1 j H Hj. destruct (dep_dec d1 b) as [Eb|N]; [|now apply set_other].
        apply (unch (FLayer i4 l) d1 d1 j (DF d1 (layer_six d1 H)) (raises_self d1)).
        -- intros PL H1 H2. cbn [hit]. apply hit_layer; [lia|]. rewrite Eb in PL. rewrite (RE SV PL). exact Hl.
        -- intros PL. rewrite (per_six d1 H) in PL. discriminate.
      * intros d1 j H. apply (layer_unch (FLayer i4 l) l (layer_deps o)); auto; [now apply layer_chap|].
        intros PL. rewrite (per_chap d1 H) in PL. discriminate.
    + intros PA. apply (layer_unch (FLayer i4 l) l (layer_deps o)); auto; [now apply layer_pade | discriminate].
Qed.
End Set_one.

(** * Calls *)
Lemma no_calc_same : o_calc o = false -> no_calc o = o.
Proof. unfold no_calc. destruct o; cbn. now intros ->. Qed.
Lemma calm_solve o' h k (s : st) : calm s (fst (solve P o' h k s)).
Proof. apply (calm_of P o'). intros J HJ. now apply (pres_solve P o'). Qed.
Lemma run_sx c s : sx (fst (run P o c s)) = after c (sx s).
Proof.
  destruct c; cbn [run fst after]; try reflexivity.
  - unfold set_input. destruct (per_layer b); reflexivity.
  - apply calm_solve.
  - apply calm_solve.
Qed.
Lemma run_svf c s : svf (fst (run P o c s)) = match c with Update v => v | _ => svf s end.
Proof.
  destruct c; cbn [run fst]; try reflexivity.
  - apply set_svf.
  - apply calm_solve.
  - apply calm_solve.
Qed.
Lemma runs_sx h s : sx (runs P o h s) = inputs h (sx s).
Proof. revert s. induction h as [|c h IH]; intros s; [reflexivity|]. cbn [runs]. rewrite IH, run_sx. reflexivity. Qed.
Lemma runs_svf h s : svf (runs P o h s) = flags h (svf s).
Proof. revert s. induction h as [|c h IH]; intros s; [reflexivity|]. cbn [runs]. rewrite IH, run_svf. reflexivity. Qed.
Lemma run_base c s : base P s -> base P (fst (run P o c s)).
Proof.
  intros B. destruct c; cbn [run fst].
  - now apply set_base.
  - exact B.
  - exact B.
  - now apply (pres_solve P o (base P) (stable_base P o)).
  - now apply (pres_solve P (no_calc o) (base P) (stable_base P (no_calc o))).
Qed.
Lemma runs_base h s : base P s -> base P (runs P o h s).
Proof. revert s. induction h as [|c h IH]; intros s B; [exact B|]. apply IH. now apply run_base. Qed.
Lemma run_optI c s : no_toggle o c -> optI P o s -> optI P o (fst (run P o c s)).
Proof.
  intros NT I. destruct c; cbn [run fst no_toggle] in *.
  - now apply set_optI.
  - exact I.
  - intros D l. cbv zeta. cbn [clear_saved sfl]. refine (conj _ (conj _ (conj _ _))); try discriminate. intros _.
    refine (conj _ (conj _ _)); discriminate.
  - now apply (pres_solve P o _ (stable_opt P o)).
  - rewrite no_calc_same by exact NT. now apply (pres_solve P o _ (stable_opt P o)).
Qed.
Lemma runs_optI h s : Forall (no_toggle o) h -> optI P o s -> optI P o (runs P o h s).
Proof.
  intros H. revert s. induction H as [|c h Hc H IH]; intros s I; [exact I|]. apply IH. now apply run_optI.
Qed.
Lemma run_core reach c s : disciplined o reach s c -> no_toggle o c -> base P s ->
  core P o s /\ (reach = true -> U o s) -> core P o (fst (run P o c s)) /\ (reach = true -> U o (fst (run P o c s))).
Proof.
  intros D NT B [C UU].
  assert (SOL : forall h k, (reach = false -> is_both h = false) ->
            core P o (fst (solve P o h k s)) /\ (reach = true -> U o (fst (solve P o h k s)))).
  { intros h k HH. destruct reach.
    - destruct (pres_solve P o _ (stable_core P o) h k s (conj C (UU eq_refl))) as [A A']. now split.
    - split; [|discriminate]. apply core_solve; [exact C|]. rewrite HH by reflexivity. discriminate. }
  destruct c; cbn [run fst disciplined no_toggle] in *.
  - split; [now apply set_core|]. intros R. destruct D as [D|D].
    + apply (untouched_core _ (set_base b a e v s B)). now apply set_untouched.
    + apply set_U; auto.
  - split; [|exact UU]. destruct C as [I1 I2 I3 I4 I5 I6]. split; assumption.
  - destruct (untouched_core (clear_saved s) B) as [A A']; [intros f d; reflexivity|]. now split.
  - now apply SOL.
  - rewrite no_calc_same by exact NT. now apply SOL.
Qed.
Lemma runs_core reach h s : disciplined_all P o reach h s -> base P s -> core P o s /\ (reach = true -> U o s) ->
  core P o (runs P o h s) /\ (reach = true -> U o (runs P o h s)).
Proof.
  revert s. induction h as [|c h IH]; intros s D B C; [exact C|]. destruct D as (D & NT & D'). cbn [runs].
  apply IH; [exact D' | now apply run_base | now apply run_core].
Qed.

(** * Saved results through a history *)
Section Saves.
Variable (reach : bool) (sv : nat) (d : dir).
Hypothesis RL : o_save_layer o = true -> reach = true.
Definition inv_all (s : st) : Prop :=
  base P s /\ core P o s /\ (reach = true -> U o s) /\ saved P o (sx s) (svf s) sv d [] s.
Lemma untouched_all s : base P s -> untouched s -> inv_all s.
Proof.
  intros B H. destruct (untouched_core s B H) as [C UU].
  refine (conj B (conj C (conj (fun _ => UU) _))). now apply untouched_saved.
Qed.
Lemma save_none : some_save (no_save o) = false.
Proof. reflexivity. Qed.
Lemma ideal_no_save x vf h k : i_solve P (no_save o) x vf h k = i_solve P o x vf h k.
Proof. reflexivity. Qed.
(** A new handle that saves nothing. *)
Lemma fresh_ok h k x vf junk : snd (solve P (no_save o) h k (fresh P x vf junk)) = i_solve P o x vf h k.
Proof.
  set (s := fresh P x vf junk).
  assert (B : base P s) by apply fresh_base. assert (H : untouched s) by apply fresh_untouched.
  assert (Q : core P (no_save o) s /\ U (no_save o) s) by (apply untouched_core_any; assumption).
  destruct Q as [C UU]. rewrite <- ideal_no_save.
  apply (solve_ok P (no_save o) x vf sv d h k s).
  - destruct h as [|sv' d'|]; try exact Logic.I. split; [intros K; discriminate K|]. right. intros K. discriminate K.
  - refine (conj C (conj eq_refl (conj eq_refl _))). now apply untouched_saved.
  - intros _. exact UU.
  - now left.
Qed.
Lemma solver_ok h : one_solver o sv d h -> match h with Add sv' d' => same_solver o sv sv' /\ dir_ok o d d' | _ => True end.
Proof.
  destruct h as [|sv' d'|]; try (intros _; exact Logic.I). cbn [one_solver]. intros H. split.
  - intros K. now apply H.
  - destruct d'; [right|right|now left]; intros K; destruct (H K) as [_ [E|E]]; congruence.
Qed.
Lemma dir_both h : is_both h = true -> forall (r : bool), (r = false -> is_both h = false) -> r = true.
Proof. intros E r H. destruct r; [reflexivity|]. rewrite H in E by reflexivity. discriminate. Qed.
Lemma solve_all h k s junk : inv_all s -> (reach = false -> is_both h = false) -> one_solver o sv d h ->
  (some_save o = true -> snd (run P (no_save o) (Solve h k) (fresh P (sx s) (svf s) junk)) <> None) ->
  inv_all (fst (solve P o h k s)) /\
  snd (solve P o h k s) = snd (solve P (no_save o) h k (fresh P (sx s) (svf s) junk)).
Proof.
  intros (B & C & UU & S) HB OS G. cbn [run] in G. rewrite fresh_ok in *.
  assert (GG : good o (i_solve P o (sx s) (svf s) h k)).
  { destruct (some_save o) eqn:E; [right; now apply G | now left]. }
  assert (HU : is_both h = true -> U o s) by (intros E; apply UU; now apply (dir_both h)).
  destruct (solve_ok P o (sx s) (svf s) sv d h k s (solver_ok h OS) (conj C (conj eq_refl (conj eq_refl S))) HU GG) as [(C' & X' & W' & S') E].
  split; [|exact E].
  refine (conj _ (conj C' (conj _ _))).
  - now apply (pres_solve P o (base P) (stable_base P o)).
  - intros R. apply (pres_solve P o _ (stable_core P o) h k s (conj C (UU R))).
  - rewrite X', W'. exact S'.
Qed.
Lemma i_flags_bound x vf vf' i4 : (o_calc o = true -> vf' (o_n o) = vf (o_n o)) -> i_bound P o x vf' i4 = i_bound P o x vf i4.
Proof. intros H. unfold i_bound, ifc. destruct (o_calc o); [now rewrite H | reflexivity]. Qed.
Section Flags.
Variable (x : inp V) (vf vf' : nat -> V).
Hypothesis H : o_calc o = true -> forall l, l < n -> vf' l = vf l.
Lemma ifc_flags l : l < n -> ifc P o (vf' l) = ifc P o (vf l).
Proof. intros Hl. unfold ifc. destruct (o_calc o); [now rewrite H | reflexivity]. Qed.
Lemma i_flags_raw k i4 l : l < n -> i_raw P o x vf' k i4 l = i_raw P o x vf k i4 l.
Proof. intros Hl. unfold i_raw. now rewrite ifc_flags. Qed.
Lemma i_flags_ph k i4 l : l < n -> i_ph P o x vf' k i4 l = i_ph P o x vf k i4 l.
Proof. intros Hl. unfold i_ph, i_sym. now rewrite i_flags_raw. Qed.
Lemma i_flags_local i4 l : l < n -> i_local P o x vf' i4 l = i_local P o x vf i4 l.
Proof. intros Hl. unfold i_local. now rewrite i_flags_ph, ifc_flags. Qed.
Lemma i_flags_layer sv' i4 l : l < n -> i_layer P o x vf' sv' i4 l = i_layer P o x vf sv' i4 l.
Proof. intros Hl. unfold i_layer. now rewrite i_flags_ph, i_flags_local, ifc_flags. Qed.
Lemma i_flags_total d' sv' i4 : i_total P o x vf' d' sv' i4 = i_total P o x vf d' sv' i4.
Proof.
  unfold i_total.
  assert (E : forall ls, (forall l, In l ls -> l < n) -> mapO (i_turn P o x vf' sv' i4) ls = mapO (i_turn P o x vf sv' i4) ls).
  { induction ls as [|l ls IH]; intros Q; [reflexivity|]. cbn [mapO]. assert (Hl : l < n) by (apply Q; now left).
    rewrite IH by (intros; apply Q; now right). f_equal. unfold i_turn. now rewrite i_flags_layer, ifc_flags. }
  rewrite E; [reflexivity|]. intros l. apply (in_layers o).
Qed.
End Flags.
Lemma save_some b : b = true -> (o_save_phase o = b \/ o_save_local o = b \/ o_save_layer o = b \/ o_save_total o = b) -> some_save o = true.
Proof. intros -> H. unfold some_save. destruct H as [ -> | [ -> | [ -> | -> ]]]; rewrite ?orb_true_r; reflexivity. Qed.
Lemma run_all c s : careful P o reach sv d s c -> inv_all s -> inv_all (fst (run P o c s)).
Proof.
  intros (D & NT & K) I.
  assert (SOL : forall h k, (reach = false -> is_both h = false) ->
    one_solver o sv d h /\ (some_save o = true -> forall junk, snd (run P (no_save o) (Solve h k) (fresh P (sx s) (svf s) junk)) <> None) ->
    inv_all (fst (solve P o h k s))).
  { intros h k HB [OS G]. apply (solve_all h k s (fun _ => none P) I HB OS). intros Q. now apply G. }
  destruct c as [b a e v|v| |h k|h k]; cbn [run fst no_toggle disciplined] in *.
  - destruct I as (B & C & UU & S). pose proof (run_core reach (Set_ b a e v) s D Logic.I B (conj C UU)) as [C' U'].
    cbn [run fst] in C', U'.
    refine (conj (set_base b a e v s B) (conj C' (conj U' _))).
    destruct K as [K|K]; [now apply untouched_saved, set_untouched|].
    destruct D as [D|D]; [now apply untouched_saved, set_untouched|].
    intros f N. apply set_entry; [exact K | intros SL PL; apply D; auto | now apply S].
  - destruct K as [K|K]; [apply untouched_all; [apply I | exact K]|].
    destruct I as (B & C & UU & S). refine (conj B (conj _ (conj UU _))).
    + destruct C as [I1 I2 I3 I4 I5 I6]. split; assumption.
    + cbn [update_flags sx svf]. intros f N. specialize (S f N).
      assert (FL : some_save o = true -> o_calc o = true -> forall l, l < n -> v l = svf s l) by (intros E1 E2; now apply K).
      destruct f; cbn [entry] in *; try exact S.
      * intros DD. change (dirty s (FBound i4) bound_deps = false) in DD. cbn [update_flags sca]. rewrite S by exact DD.
        symmetry. apply i_flags_bound. intros CA. destruct (K CA) as [_ [E|E]]; [exact E|]. rewrite E in DD. discriminate.
      * intros SV DD. change (dirty s (FTotal i4) (total_deps o) = false) in DD. cbn [update_flags sca]. rewrite <- S by assumption.
        apply i_flags_total. apply FL. apply (save_some _ SV). auto.
      * intros SV Hl DD. change (dirty s (FPh k i4 l) (ph_deps o k) = false) in DD. cbn [update_flags sca]. rewrite S by assumption.
        symmetry. unfold i_sym. f_equal. apply i_flags_raw; [|exact Hl]. apply FL. apply (save_some _ SV). auto.
      * intros SV Hl DD. change (dirty s (FLocal i4 l) (local_deps o) = false) in DD. cbn [update_flags sca]. rewrite <- S by assumption.
        apply i_flags_local; [|exact Hl]. apply FL. apply (save_some _ SV). auto.
      * intros SV Hl DD. change (dirty s (FLayer i4 l) (layer_deps o) = false) in DD. cbn [update_flags sca]. rewrite <- S by assumption.
        apply i_flags_layer; [|exact Hl]. apply FL. apply (save_some _ SV). auto.
  - apply untouched_all; [apply I | intros f d'; reflexivity].
  - now apply SOL.
  - rewrite no_calc_same by exact NT. now apply SOL.
Qed.
Lemma runs_all h s : careful_all P o reach sv d h s -> inv_all s -> inv_all (runs P o h s).
Proof.
  revert s. induction h as [|c h IH]; intros s K I; [exact I|]. destruct K as [K K']. cbn [runs]. apply IH; [exact K'|]. now apply run_all.
Qed.
(** A solve after a careful history gives what a new handle with the same inputs gives. *)
Theorem as_new h s w k junk : inv_all s -> careful_all P o reach sv d h s -> careful P o reach sv d (runs P o h s) (Solve w k) ->
  snd (run P o (Solve w k) (runs P o h s)) = snd (run P (no_save o) (Solve w k) (fresh P (inputs h (sx s)) (flags h (svf s)) junk)).
Proof.
  intros I K (D & _ & OS & G). pose proof (runs_all h s K I) as I'.
  destruct (solve_all w k _ junk I' D OS (fun Q => G Q junk)) as [_ E]. cbn [run]. rewrite E, runs_sx, runs_svf. reflexivity.
Qed.
End Saves.
End Hist.
