(** C43: the adjoint of single scattering is the adjoint, so the gradients it gives are those of the radiances. *)
From Coq Require Import Reals Lra Lia Bool Arith.
From Verif Require Import Base DerivsModel DeltaMModel BeamModel SingleModel SingleSpec SingleAdjModel SingleAdjSpec DeltaMSpec DeltaMProofs BeamProofs SingleProofs
  SingleProperties SingleAdjProofs.
Open Scope R_scope.

(** The change of the radiance of element [jj] at output [k], as the forward run gives it, when the inputs change in direction [d] and the
    entering radiation in direction [din]; and the radiance itself *)
Definition response_up (x d : atm) (mu : nat -> R) (v : varied) (n : nat) (q : places) (F0 : R) (I_in din : nat -> R) (k jj : nat) : R :=
  match single_up (view x jj) (fun _ => view d jj) v (mu jj) n q F0 {| val := I_in jj; der := fun _ => din jj |} k with Some e => der e 0%nat | None => 0 end.
Definition response_dn (x d : atm) (mu : nat -> R) (v : varied) (q : places) (F0 : R) (I_in din : nat -> R) (k jj : nat) : R :=
  match single_dn (view x jj) (fun _ => view d jj) v (mu jj) q F0 {| val := I_in jj; der := fun _ => din jj |} k with Some e => der e 0%nat | None => 0 end.
Definition radiance_up (x d : atm) (mu : nat -> R) (v : varied) (n : nat) (q : places) (F0 : R) (I_in din : nat -> R) (k jj : nat) : R :=
  match single_up (view x jj) (fun _ => view d jj) v (mu jj) n q F0 {| val := I_in jj; der := fun _ => din jj |} k with Some e => val e | None => 0 end.
Definition radiance_dn (x d : atm) (mu : nat -> R) (v : varied) (q : places) (F0 : R) (I_in din : nat -> R) (k jj : nat) : R :=
  match single_dn (view x jj) (fun _ => view d jj) v (mu jj) q F0 {| val := I_in jj; der := fun _ => din jj |} k with Some e => val e | None => 0 end.
Definition all_sound (n m : nat) (x : atm) (mu : nat -> R) (q : places) : Prop := (0 < m)%nat /\ forall jj, (jj < m)%nat -> sound n (view x jj) (mu jj) q.
Definition flagged_dir (n m : nat) (v : varied) (d : atm) : Prop := forall i jj, (i < n)%nat -> (jj < m)%nat -> v i 0%nat = false -> t_ph d i jj = 0.

Lemma up_g : forall x d mu n m v q F0 I_in din g, all_sound n m x mu q -> F0 <> 0 ->
  total (nu q) (up_resp x d mu n m v q (fun jj => divided (unit_of F0 (mu jj)) {| val := I_in jj; der := fun _ => din jj |}) (fun k jj => g k jj * unit_of F0 (mu jj))) =
  weighted (nu q) m g (response_up x d mu v n q F0 I_in din).
Proof.
  intros x d mu n m v q F0 I_in din g (_ & SD) H. unfold weighted. apply total_ext. intros k K. apply total_ext. intros jj J.
  destruct (SD jj J) as (_ & _ & _ & A). unfold response_up. rewrite single_up_is by assumption. cbn [times der]. ring.
Qed.
Lemma dn_g : forall x d mu n m v q F0 I_in din g, all_sound n m x mu q -> F0 <> 0 ->
  total (nu q) (dn_resp x d mu m v q (fun jj => divided (unit_of F0 (mu jj)) {| val := I_in jj; der := fun _ => din jj |}) (fun k jj => g k jj * unit_of F0 (mu jj))) =
  weighted (nu q) m g (response_dn x d mu v q F0 I_in din).
Proof.
  intros x d mu n m v q F0 I_in din g (_ & SD) H. unfold weighted. apply total_ext. intros k K. apply total_ext. intros jj J.
  destruct (SD jj J) as (_ & _ & _ & A). unfold response_dn.
  destruct (single_dn_is (view x jj) (fun _ => view d jj) v (mu jj) n q F0 {| val := I_in jj; der := fun _ => din jj |} k A H K) as (e & -> & (_ & S)).
  cbn [times der]. rewrite (S 0%nat). ring.
Qed.

Theorem C43_up_adjoint : forall x mu n m q F0 I_in g a ina, all_sound n m x mu q -> F0 <> 0 ->
  exists a' ina', single_up_a x mu m n q F0 I_in g a ina = Some (a', ina') /\
  forall d din v, flagged_dir n m v d ->
    along n m d din a' ina' = along n m d din a ina + weighted (nu q) m g (response_up x d mu v n q F0 I_in din).
Proof.
  intros x mu n m q F0 I_in g a ina SD H. unfold single_up_a. destruct (Req_EM_T F0 0); [contradiction|]. cbv zeta.
  do 2 eexists. split; [reflexivity|]. intros d din v FL. rewrite <- up_g by assumption.
  set (I0 := fun jj => divided (unit_of F0 (mu jj)) {| val := I_in jj; der := fun _ => din jj |}).
  destruct SD as (MP & SD). destruct (SD 0%nat MP) as (N & _ & LX & A).
  assert (forall k, (k < m)%nat -> 0 < mu k) as MUP by (intros k K; destruct (SD k K) as (_ & ? & _); assumption).
  pose proof (up_all_adj x d mu n m v q I0 (fun k jj => g k jj * unit_of F0 (mu jj)) A) as AD.
  specialize (AD (fun k K => Rgt_not_eq _ _ (MUP k K)) FL).
  specialize (AD (fun i Hi => Rgt_not_eq _ _ (proj1 (LX i Hi)))).
  specialize (AD (fun i k Hi K => up_nz _ _ (MUP k K) (proj2 (LX i Hi)))).
  specialize (AD (saved_up x mu n q F0 I_in)).
  assert (forall i k, (ul q 0 <= i)%nat -> (i < n)%nat -> (k < m)%nat -> saved_up x mu n q F0 I_in i k =
    val (up_at (view x k) (fun _ => view d k) v (mu k) n (n - S i) (I0 k))) as SV.
  { intros i k L0 L K. unfold saved_up. pose proof (ask_le n q A 0%nat (ask_pos n q A)).
    rewrite (up_saves_is (view x k) (fun _ => view d k) v (mu k) n (ul q 0) (I0 k)); [|lia|].
    - destruct (Nat.leb_spec (ul q 0) i), (Nat.ltb_spec i (ul q 0 + (n - ul q 0))); cbn [andb]; reflexivity || lia.
    - replace (n - (ul q 0 + (n - ul q 0)))%nat with 0%nat by lia. reflexivity. }
  specialize (AD SV a). cbv zeta in AD.
  set (s := up_loop_a x mu m q (saved_up x mu n q F0 I_in) (fun k jj => g k jj * unit_of F0 (mu jj)) (ul q 0) (n - ul q 0) {| sw := a; sa := fun _ => 0; sp := 0 |}) in *.
  unfold along. transitivity (pair n m d a + total (nu q) (up_resp x d mu n m v q I0 (fun k jj => g k jj * unit_of F0 (mu jj))) + total m (fun jj => din jj * ina jj)); [|ring].
  rewrite <- AD. unfold psi; cbn [fst snd]. rewrite Rplus_assoc. f_equal. rewrite <- total_plus. apply total_ext. intros jj J.
  destruct (Nat.ltb_spec jj m); [|lia]. unfold I0; cbn [divided der]. unfold Rdiv. ring.
Qed.

(** Down: the adjoint of the entering radiation is assigned, not added to; and with outputs at optical depths one of them must be in the top layer *)
Theorem C43_down_adjoint : forall x mu n m q F0 I_in g a ina, all_sound n m x mu q -> F0 <> 0 ->
  (forall jj, (jj < m)%nat -> off_beam n (view x jj) (mu jj)) -> (taus q = true -> ul q 0%nat = 0%nat) ->
  exists a' ina', single_dn_a x mu m q F0 I_in g a ina = Some (a', ina') /\
  forall d din v, flagged_dir n m v d ->
    along n m d din a' ina' = along n m d din a (fun _ => 0) + weighted (nu q) m g (response_dn x d mu v q F0 I_in din).
Proof.
  intros x mu n m q F0 I_in g a ina SD H OFF TOP. unfold single_dn_a. destruct (Req_EM_T F0 0); [contradiction|]. cbv zeta.
  destruct SD as (MP & SD). destruct (SD 0%nat MP) as (N & _ & LX & A).
  assert (forall k, (k < m)%nat -> 0 < mu k) as MUP by (intros k K; destruct (SD k K) as (_ & ? & _); assumption).
  assert (forall d din v, flagged_dir n m v d -> exists s,
    dn_loop_a x mu m q (saved_dn x mu q F0 I_in) (fun k jj => g k jj * unit_of F0 (mu jj)) (dn_end q) {| sw := a; sa := fun _ => 0; sp := nu q |} = Some s /\
    along n m d din (sw s) (fun jj => if Nat.ltb jj m then dn_end_a m q (fun k jj => g k jj * unit_of F0 (mu jj)) s jj / unit_of F0 (mu jj) else ina jj) =
    along n m d din a (fun _ => 0) + weighted (nu q) m g (response_dn x d mu v q F0 I_in din)) as AD.
  { intros d din v FL. rewrite <- (dn_g x d mu n) by (try split; assumption).
    set (I0 := fun jj => divided (unit_of F0 (mu jj)) {| val := I_in jj; der := fun _ => din jj |}).
    pose proof (dn_all_adj x d mu n m v q I0 (fun k jj => g k jj * unit_of F0 (mu jj)) A) as AD.
    specialize (AD (fun k K => Rgt_not_eq _ _ (MUP k K)) FL).
    specialize (AD (fun i Hi => Rgt_not_eq _ _ (proj1 (LX i Hi)))).
    specialize (AD (fun i k Hi K => OFF k K i Hi)).
    specialize (AD (saved_dn x mu q F0 I_in)).
    assert (forall i k, (i < dn_end q)%nat -> (k < m)%nat -> saved_dn x mu q F0 I_in i k =
      val (dn_at (view x k) (fun _ => view d k) v (mu k) i (I0 k))) as SV.
    { intros i k L K. unfold saved_dn.
      rewrite (dn_saves_is (view x k) (fun _ => view d k) v (mu k) (I0 k)); [|reflexivity].
      destruct (Nat.leb_spec 0 i), (Nat.ltb_spec i (0 + dn_end q)); cbn [andb]; reflexivity || lia. }
    specialize (AD SV TOP a). destruct AD as (s & R & E). exists s. split; [exact R|].
    unfold along. rewrite (total_zero m (fun jj => din jj * 0)) by (intros; ring). rewrite Rplus_0_r, <- E.
    unfold psi; cbn [fst snd]. f_equal. apply total_ext. intros jj J.
    destruct (Nat.ltb_spec jj m); [|lia]. unfold I0; cbn [divided der]. unfold Rdiv. ring. }
  destruct (AD a (fun _ => 0) (fun _ _ => true)) as (s & R & _); [intros ? ? ? ? ?; discriminate|].
  rewrite R. do 2 eexists. split; [reflexivity|]. intros d din v FL. destruct (AD d din v FL) as (s' & R' & E'). rewrite R in R'. injection R' as <-. exact E'.
Qed.

(** With C42, started from zero the adjoints are the gradient of any weighted sum of the radiances *)
Definition empty : atm := {| t_om := fun _ => 0; t_lt := fun _ => 0; t_bt := fun _ => 0; t_sl := fun _ => 0; t_ph := fun _ _ => 0 |}.
Lemma along_empty : forall n m d din, along n m d din empty (fun _ => 0) = 0.
Proof.
  intros. unfold along, pair, sum2, empty; cbn [t_om t_lt t_bt t_sl t_ph].
  assert (forall k (f : nat -> R), total k (fun i => f i * 0) = 0) as Z by (intros; apply total_zero; intros; ring).
  rewrite (total_zero n (fun i => total m (fun k => t_ph d i k * 0))) by (intros; apply Z).
  rewrite !Z. ring.
Qed.
(** The inputs move with [s], in direction [d] *)
Definition atm_moving (n m : nat) (s0 : R) (X : R -> atm) (d : atm) : Prop :=
  smooth n s0 (fun s => t_om (X s)) (t_om d) /\ smooth n s0 (fun s => t_lt (X s)) (t_lt d) /\ smooth n s0 (fun s => t_bt (X s)) (t_bt d) /\
  smooth n s0 (fun s => t_sl (X s)) (t_sl d) /\ (forall jj, (jj < m)%nat -> smooth n s0 (fun s i => t_ph (X s) i jj) (fun i => t_ph d i jj)).
Definition atm_carried (q : places) (X : R -> atm) (s0 s : R) : places := carried q (fun s => view (X s) 0) s0 s.

Lemma weighted_deriv : forall nk m g (y : R -> nat -> nat -> R) s0 l, (forall k jj, (k < nk)%nat -> (jj < m)%nat -> derivable_pt_lim (fun s => y s k jj) s0 (l k jj)) ->
  derivable_pt_lim (fun s => weighted nk m g (y s)) s0 (weighted nk m g l).
Proof.
  intros nk m g y s0 l H. unfold weighted. apply (dl_total nk (fun k s => total m (fun jj => g k jj * y s k jj))). intros k K.
  apply (dl_total m (fun jj s => g k jj * y s k jj)). intros jj J. apply dl_scal. apply H; assumption.
Qed.
Theorem C43_up_gradient : forall X s0 d mu n m q F0 (I_in : R -> nat -> R) din g, all_sound n m (X s0) mu q -> F0 <> 0 ->
  atm_moving n m s0 X d -> (forall jj, (jj < m)%nat -> derivable_pt_lim (fun s => I_in s jj) s0 (din jj)) ->
  exists a ina, single_up_a (X s0) mu m n q F0 (I_in s0) g empty (fun _ => 0) = Some (a, ina) /\
  derivable_pt_lim (fun s => weighted (nu q) m g (radiance_up (X s) d mu (fun _ _ => true) n (atm_carried q X s0 s) F0 (I_in s) din)) s0 (along n m d din a ina).
Proof.
  intros X s0 d mu n m q F0 I_in din g SD H (MO & ML & MB & MS & MP) DI.
  destruct (C43_up_adjoint (X s0) mu n m q F0 (I_in s0) g empty (fun _ => 0) SD H) as (a & ina & E & AD). exists a, ina. split; [exact E|].
  rewrite (AD d din (fun _ _ => true)) by (intros ? ? ? ? ?; discriminate). rewrite along_empty, Rplus_0_l. apply weighted_deriv.
  intros k jj K J. destruct SD as (_ & SD).
  destruct (C42_up_derivs (fun s => view (X s) jj) s0 (fun _ => view d jj) (fun _ _ => true) (mu jj) n q F0 (fun s => {| val := I_in s jj; der := fun _ => din jj |}) 0%nat
    (SD jj J) H) with (k := k) as (y & e & Y & E1 & D1).
  - refine (conj MO (conj ML (conj (MP jj J) (conj MB MS)))).
  - intros ? ? ?; discriminate.
  - apply DI. exact J.
  - exact K.
  - unfold response_up. rewrite E1.
    eapply derivable_pt_lim_ext; [|exact D1]. intros s. destruct (Y s) as (e' & E' & <-). unfold radiance_up.
    change (atm_carried q X s0 s) with (carried q (fun s => view (X s) jj) s0 s). rewrite E'. reflexivity.
Qed.

Theorem C43_down_gradient : forall X s0 d mu n m q F0 (I_in : R -> nat -> R) din g ina, all_sound n m (X s0) mu q -> F0 <> 0 ->
  (forall jj, (jj < m)%nat -> off_beam n (view (X s0) jj) (mu jj)) -> (taus q = true -> ul q 0%nat = 0%nat) ->
  atm_moving n m s0 X d -> (forall jj, (jj < m)%nat -> derivable_pt_lim (fun s => I_in s jj) s0 (din jj)) ->
  exists a ina', single_dn_a (X s0) mu m q F0 (I_in s0) g empty ina = Some (a, ina') /\
  derivable_pt_lim (fun s => weighted (nu q) m g (radiance_dn (X s) d mu (fun _ _ => true) (atm_carried q X s0 s) F0 (I_in s) din)) s0 (along n m d din a ina').
Proof.
  intros X s0 d mu n m q F0 I_in din g ina SD H OFF TOP (MO & ML & MB & MS & MP) DI.
  destruct (C43_down_adjoint (X s0) mu n m q F0 (I_in s0) g empty ina SD H OFF TOP) as (a & ina' & E & AD). exists a, ina'. split; [exact E|].
  rewrite (AD d din (fun _ _ => true)) by (intros ? ? ? ? ?; discriminate). rewrite along_empty, Rplus_0_l. apply weighted_deriv.
  intros k jj K J. destruct SD as (_ & SD).
  destruct (C42_down_derivs (fun s => view (X s) jj) s0 (fun _ => view d jj) (fun _ _ => true) (mu jj) n q F0 (fun s => {| val := I_in s jj; der := fun _ => din jj |}) 0%nat
    (SD jj J) (OFF jj J) H) with (k := k) as (y & e & Y & E1 & D1).
  - refine (conj MO (conj ML (conj (MP jj J) (conj MB MS)))).
  - intros ? ? ?; discriminate.
  - apply DI. exact J.
  - exact K.
  - unfold response_dn. rewrite E1.
    eapply derivable_pt_lim_ext; [|exact D1]. intros s. destruct (Y s) as (e' & E' & <-). unfold radiance_dn.
    change (atm_carried q X s0 s) with (carried q (fun s => view (X s) jj) s0 s). rewrite E'. reflexivity.
Qed.

(** The corrections: the adjoints of both kinds of scattering and of what they share *)
Definition scat_view (c : scatm) (jj : nat) : SingleModel.scattering := {| s_om := c_om c; s_ph := fun i => c_ph c i jj |}.
Definition response_cu (x d : atm) (t f dt df : scatm) (mu : nat -> R) (v : varied) (n : nat) (q : places) (F0 : R) (I_in din : nat -> R) (k jj : nat) : R :=
  match correction_up (view x jj) (fun _ => view d jj) (scat_view t jj) (scat_view f jj) (fun _ => scat_view dt jj) (fun _ => scat_view df jj) v (mu jj) n q F0
    {| val := I_in jj; der := fun _ => din jj |} k with Some e => der e 0%nat | None => 0 end.
Definition response_cd (x d : atm) (t f dt df : scatm) (mu : nat -> R) (v : varied) (q : places) (F0 : R) (I_in din : nat -> R) (k jj : nat) : R :=
  match correction_dn (view x jj) (fun _ => view d jj) (scat_view t jj) (scat_view f jj) (fun _ => scat_view dt jj) (fun _ => scat_view df jj) v (mu jj) q F0
    {| val := I_in jj; der := fun _ => din jj |} k with Some e => der e 0%nat | None => 0 end.
Definition flagged_scat (n m : nat) (v : varied) (d : scatm) : Prop := forall i jj, (i < n)%nat -> (jj < m)%nat -> v i 0%nat = false -> c_ph d i jj = 0.

Lemma along_split : forall n m d c din a e ina,
  along n m (put_scat d c) din (put_scat a e) ina = shared_pair n d a + scat_pair n m c e + total m (fun jj => din jj * ina jj).
Proof. intros. unfold along, pair, shared_pair, scat_pair, put_scat; cbn [t_om t_lt t_bt t_sl t_ph]. ring. Qed.
Lemma put_get : forall a, put_scat a (get_scat a) = a.
Proof. intros []. reflexivity. Qed.
Lemma put_put : forall a c e, put_scat (put_scat a c) e = put_scat a e.
Proof. reflexivity. Qed.
Lemma shared_put : forall n d a c, shared_pair n d (put_scat a c) = shared_pair n d a.
Proof. reflexivity. Qed.
Lemma weighted_less : forall nk m g y z, weighted nk m g (fun k jj => y k jj - z k jj) = weighted nk m g y + weighted nk m (fun k jj => -1 * g k jj) z.
Proof.
  intros. unfold weighted. rewrite <- total_plus. apply total_ext. intros k _. rewrite <- total_plus. apply total_ext. intros jj _. ring.
Qed.
Lemma weighted_ext : forall nk m g y z, (forall k jj, (k < nk)%nat -> (jj < m)%nat -> y k jj = z k jj) -> weighted nk m g y = weighted nk m g z.
Proof. intros nk m g y z E. unfold weighted. apply total_ext. intros k K. apply total_ext. intros jj J. rewrite E by assumption. reflexivity. Qed.

Theorem C43_correction_up_adjoint : forall x trun full mu n m q F0 I_in g a at' af ina, all_sound n m x mu q -> F0 <> 0 ->
  exists a' at1 af1 ina', correction_a (fun y g a ina => single_up_a y mu m n q F0 I_in g a ina) x trun full g a at' af ina = Some (a', at1, af1, ina') /\
  forall d dt df din v, flagged_scat n m v dt -> flagged_scat n m v df ->
    along2 n m d dt df din a' at1 af1 ina' =
    along2 n m d dt df din a at' af ina + weighted (nu q) m g (response_cu x d trun full dt df mu v n q F0 I_in din).
Proof.
  intros x trun full mu n m q F0 I_in g a at' af ina SD H. unfold correction_a.
  assert (forall c, all_sound n m (put_scat x c) mu q) as SC by (intros c; exact SD).
  destruct (C43_up_adjoint (put_scat x trun) mu n m q F0 I_in (fun k jj => -1 * g k jj) (put_scat a at') ina (SC trun) H) as (a1 & in1 & -> & A1).
  destruct (C43_up_adjoint (put_scat x full) mu n m q F0 I_in g (put_scat a1 af) in1 (SC full) H) as (a2 & in2 & -> & A2).
  do 4 eexists. split; [reflexivity|]. intros d dt df din v FT FF.
  specialize (A1 (put_scat d dt) din v FT). specialize (A2 (put_scat d df) din v FF).
  rewrite <- (put_get a1) in A1 at 1. rewrite <- (put_get a2) in A2. rewrite !along_split in A1, A2. rewrite ?shared_put in A2. unfold along2.
  rewrite (weighted_ext _ _ _ _ (fun k jj => response_up (put_scat x full) (put_scat d df) mu v n q F0 I_in din k jj -
    response_up (put_scat x trun) (put_scat d dt) mu v n q F0 I_in din k jj)).
  - rewrite weighted_less.
    change (fun k jj => response_up (put_scat x full) (put_scat d df) mu v n q F0 I_in din k jj) with (response_up (put_scat x full) (put_scat d df) mu v n q F0 I_in din).
    change (fun k jj => response_up (put_scat x trun) (put_scat d dt) mu v n q F0 I_in din k jj) with (response_up (put_scat x trun) (put_scat d dt) mu v n q F0 I_in din).
    lra.
  - intros k jj K J. destruct SD as (_ & SD). destruct (SD jj J) as (_ & _ & _ & A). unfold response_cu, response_up, correction_up, minus. cbv zeta.
    change (scat (view x jj) (scat_view trun jj)) with (view (put_scat x trun) jj). change (scat (view x jj) (scat_view full jj)) with (view (put_scat x full) jj).
    change (fun _ : nat => scat (view d jj) (scat_view dt jj)) with (fun _ : nat => view (put_scat d dt) jj).
    change (fun _ : nat => scat (view d jj) (scat_view df jj)) with (fun _ : nat => view (put_scat d df) jj).
    rewrite !single_up_is by assumption. reflexivity.
Qed.
(** Down: with what enters kept as it is *)
Theorem C43_correction_down_adjoint : forall x trun full mu n m q F0 I_in g a at' af ina, all_sound n m x mu q -> F0 <> 0 ->
  (forall jj, (jj < m)%nat -> off_beam n (view x jj) (mu jj)) -> (taus q = true -> ul q 0%nat = 0%nat) ->
  exists a' at1 af1 ina', correction_a (fun y g a ina => single_dn_a y mu m q F0 I_in g a ina) x trun full g a at' af ina = Some (a', at1, af1, ina') /\
  forall d dt df v, flagged_scat n m v dt -> flagged_scat n m v df -> let din := fun _ => 0 in
    along2 n m d dt df din a' at1 af1 ina' =
    along2 n m d dt df din a at' af ina + weighted (nu q) m g (response_cd x d trun full dt df mu v q F0 I_in din).
Proof.
  intros x trun full mu n m q F0 I_in g a at' af ina SD H OFF TOP. unfold correction_a.
  assert (forall c, all_sound n m (put_scat x c) mu q) as SC by (intros c; exact SD).
  assert (forall c jj, (jj < m)%nat -> off_beam n (view (put_scat x c) jj) (mu jj)) as OC by (intros c; exact OFF).
  destruct (C43_down_adjoint (put_scat x trun) mu n m q F0 I_in (fun k jj => -1 * g k jj) (put_scat a at') ina (SC trun) H (OC trun) TOP) as (a1 & in1 & -> & A1).
  destruct (C43_down_adjoint (put_scat x full) mu n m q F0 I_in g (put_scat a1 af) in1 (SC full) H (OC full) TOP) as (a2 & in2 & -> & A2).
  do 4 eexists. split; [reflexivity|]. intros d dt df v FT FF. cbv zeta. set (din := fun _ : nat => 0) in *.
  specialize (A1 (put_scat d dt) din v FT). specialize (A2 (put_scat d df) din v FF).
  rewrite <- (put_get a1) in A1 at 1. rewrite <- (put_get a2) in A2. rewrite !along_split in A1, A2. rewrite ?shared_put in A2. unfold along2.
  assert (forall f : nat -> R, total m (fun jj => din jj * f jj) = 0) as Z by (intros; apply total_zero; intros; unfold din; ring).
  rewrite !Z in *.
  rewrite (weighted_ext _ _ _ _ (fun k jj => response_dn (put_scat x full) (put_scat d df) mu v q F0 I_in din k jj -
    response_dn (put_scat x trun) (put_scat d dt) mu v q F0 I_in din k jj)).
  - rewrite weighted_less.
    change (fun k jj => response_dn (put_scat x full) (put_scat d df) mu v q F0 I_in din k jj) with (response_dn (put_scat x full) (put_scat d df) mu v q F0 I_in din).
    change (fun k jj => response_dn (put_scat x trun) (put_scat d dt) mu v q F0 I_in din k jj) with (response_dn (put_scat x trun) (put_scat d dt) mu v q F0 I_in din).
    lra.
  - intros k jj K J. destruct SD as (_ & SD). destruct (SD jj J) as (_ & _ & _ & A). unfold response_cd, response_dn, correction_dn, minus. cbv zeta.
    change (scat (view x jj) (scat_view trun jj)) with (view (put_scat x trun) jj). change (scat (view x jj) (scat_view full jj)) with (view (put_scat x full) jj).
    change (fun _ : nat => scat (view d jj) (scat_view dt jj)) with (fun _ : nat => view (put_scat d dt) jj).
    change (fun _ : nat => scat (view d jj) (scat_view df jj)) with (fun _ : nat => view (put_scat d df) jj).
    destruct (single_dn_is (view (put_scat x full) jj) (fun _ => view (put_scat d df) jj) v (mu jj) n q F0 {| val := I_in jj; der := fun _ => din jj |} k A H K) as (e1 & -> & _).
    destruct (single_dn_is (view (put_scat x trun) jj) (fun _ => view (put_scat d dt) jj) v (mu jj) n q F0 {| val := I_in jj; der := fun _ => din jj |} k A H K) as (e2 & -> & _).
    reflexivity.
Qed.

(** The hypotheses are met: two layers, two directions, outputs at optical depths and at levels *)
Definition two_atm : atm :=
  {| t_om := fun _ => 9 / 10; t_lt := fun i => INR (S i); t_bt := fun _ => 1; t_sl := fun _ => 3; t_ph := fun i jj => INR (i + jj) |}.
Definition two_mus (jj : nat) : R := match jj with O => 1 / 2 | _ => 1 end.
Example two_atm_sound : all_sound 2 2 two_atm two_mus three_depths /\ all_sound 2 2 two_atm two_mus two_levels /\
  (forall jj, (jj < 2)%nat -> off_beam 2 (view two_atm jj) (two_mus jj)) /\ (taus three_depths = true -> ul three_depths 0%nat = 0%nat) /\
  flagged_dir 2 2 (fun _ _ => true) two_atm.
Proof.
  destruct two_layers_sound as ((_ & _ & L & A1) & (_ & _ & _ & A2) & _).
  assert (forall jj, (jj < 2)%nat -> 0 < two_mus jj) as M by (intros [|jj] _; cbn; lra).
  refine (conj _ (conj _ (conj _ (conj _ _)))).
  - split; [lia|]. intros jj J. refine (conj _ (conj (M jj J) (conj L A1))). lia.
  - split; [lia|]. intros jj J. refine (conj _ (conj (M jj J) (conj L A2))). lia.
  - intros [|jj] _ i _; cbn; lra.
  - reflexivity.
  - intros ? ? ? ? ?; discriminate.
Qed.
(** The atmosphere can move: the optical thickness of both layers grows *)
Definition thicker (s : R) : atm := {| t_om := t_om two_atm; t_lt := fun i => t_lt two_atm i + s; t_bt := t_bt two_atm; t_sl := t_sl two_atm; t_ph := t_ph two_atm |}.
Definition thicker_l : atm := {| t_om := fun _ => 0; t_lt := fun _ => 0 + 1; t_bt := fun _ => 0; t_sl := fun _ => 0; t_ph := fun _ _ => 0 |}.
Example two_atm_moves : atm_moving 2 2 0 thicker thicker_l /\ all_sound 2 2 (thicker 0) two_mus two_levels.
Proof.
  split.
  - refine (conj _ (conj _ (conj _ (conj _ _)))); [| | | |intros jj J]; intros i Hi; cbn [t_om t_lt t_bt t_sl t_ph thicker thicker_l]; try apply dl_const.
    apply (dl_plus (fun _ => t_lt two_atm i) (fun s => s)); [apply dl_const|apply dl_id].
  - destruct two_atm_sound as (_ & (_ & SD) & _). split; [lia|]. intros jj J. destruct (SD jj J) as (N & M & L & A). refine (conj N (conj M (conj _ A))).
    intros i Hi. destruct (L i Hi) as (L1 & L2). split; [cbn [lt view thicker t_lt]; cbn [lt view] in L1; lra|exact L2].
Qed.

(** Where the property stops holding.  Going down, what was in the adjoint of the entering radiation is lost *)
Definition top_level : places := {| nu := 1; ul := fun _ => 0%nat; ut := fun _ => 0; taus := false |}.
Lemma top_sound : all_sound 1 1 two_atm two_mus top_level.
Proof.
  split; [lia|]. intros jj J. refine (conj _ (conj _ (conj _ _))); [lia|destruct jj; cbn; lra|intros i _; cbn [view lt sl two_atm t_lt t_sl]; split; [apply lt_0_INR; lia|lra]|].
  refine (conj _ (conj _ _)); cbn; [lia|intros; lia|intros; lia].
Qed.
Theorem C43_entering_lost_refuted : exists x mu n m q F0 I_in g a ina a' ina' d din v, all_sound n m x mu q /\ F0 <> 0 /\
  (forall jj, (jj < m)%nat -> off_beam n (view x jj) (mu jj)) /\ flagged_dir n m v d /\
  single_dn_a x mu m q F0 I_in g a ina = Some (a', ina') /\
  along n m d din a' ina' <> along n m d din a ina + weighted (nu q) m g (response_dn x d mu v q F0 I_in din).
Proof.
  assert (forall jj, (jj < 1)%nat -> off_beam 1 (view two_atm jj) (two_mus jj)) as OFF by (intros [|jj] J i _; cbn; lra).
  destruct (C43_down_adjoint two_atm two_mus 1 1 top_level 1 (fun _ => 0) (fun _ _ => 0) empty (fun _ => 1) top_sound R1_neq_R0 OFF) as (a' & ina' & E & AD);
    [discriminate|].
  exists two_atm, two_mus, 1%nat, 1%nat, top_level, 1, (fun _ => 0), (fun _ _ => 0), empty, (fun _ => 1), a', ina', empty, (fun _ => 1), (fun _ _ => true).
  refine (conj top_sound (conj R1_neq_R0 (conj OFF (conj _ (conj E _))))); [intros ? ? ? ? ?; discriminate|].
  rewrite (AD empty (fun _ => 1) (fun _ _ => true)) by (intros ? ? ? ? ?; discriminate). unfold along. cbn [total]. lra.
Qed.
(** ... so the adjoint of the downwelling correction says it depends on what enters, which it does not *)
Theorem C43_correction_entering_refuted : exists x trun full mu n m q F0 I_in g a at' af a' at1 af1 ina', all_sound n m x mu q /\ F0 <> 0 /\
  (forall jj, (jj < m)%nat -> off_beam n (view x jj) (mu jj)) /\
  correction_a (fun y g a ina => single_dn_a y mu m q F0 I_in g a ina) x trun full g a at' af (fun _ => 0) = Some (a', at1, af1, ina') /\
  (forall din k jj, (k < nu q)%nat -> (jj < m)%nat -> response_cd x empty trun full (get_scat empty) (get_scat empty) mu (fun _ _ => true) q F0 I_in din k jj = 0) /\
  ina' 0%nat <> 0 /\ (0 < m)%nat.
Proof.
  assert (forall jj, (jj < 1)%nat -> off_beam 1 (view two_atm jj) (two_mus jj)) as OFF by (intros [|jj] J i _; cbn; lra).
  exists two_atm, (get_scat two_atm), (get_scat empty), two_mus, 1%nat, 1%nat, top_level, 1, (fun _ => 0), (fun _ _ => 1), empty, (get_scat empty), (get_scat empty).
  do 4 eexists. refine (conj top_sound (conj R1_neq_R0 (conj OFF (conj _ (conj _ (conj _ _)))))).
  - unfold correction_a, single_dn_a. destruct (Req_EM_T 1 0); [exfalso; lra|]. cbv zeta. cbn [dn_loop_a dn_end top_level taus nu ul]. cbn. reflexivity.
  - intros din k jj K J. cbn [nu top_level] in K. assert (k = 0%nat) as -> by lia. assert (jj = 0%nat) as -> by lia.
    unfold response_cd, correction_dn, minus, single_dn. cbv zeta. destruct (Req_EM_T 1 0); [exfalso; lra|]. cbn. lra.
  - cbn. unfold unit_of. cbn. pose proof PI_RGT_0. intros E.
    assert (1 = 0) as F by (rewrite <- E; field; lra). lra.
  - lia.
Qed.
(** An output at an optical depth below the top layer and none in it: the adjoint reads before the array *)
Definition second_layer : places := {| nu := 1; ul := fun _ => 1%nat; ut := fun _ => 1; taus := true |}.
Theorem C43_below_top_refuted : exists x mu n m q F0 I_in g, all_sound n m x mu q /\ inside (nu q) (ul q) (ut q) (t_lt x) (taus q) /\ F0 <> 0 /\
  (forall jj, (jj < m)%nat -> off_beam n (view x jj) (mu jj)) /\
  (forall dx v jj k, (jj < m)%nat -> (k < nu q)%nat -> exists e, single_dn (view x jj) dx v (mu jj) q F0 {| val := I_in jj; der := fun _ => 0 |} k = Some e) /\
  forall a ina, single_dn_a x mu m q F0 I_in g a ina = None.
Proof.
  assert (all_sound 2 1 two_atm two_mus second_layer) as SD.
  { split; [lia|]. intros jj J. refine (conj _ (conj _ (conj _ _))); [lia|destruct jj; cbn; lra|intros i _; cbn [view lt sl two_atm t_lt t_sl]; split; [apply lt_0_INR; lia|lra]|].
    refine (conj _ (conj _ _)); cbn; [lia|intros; lia|intros; lia]. }
  exists two_atm, two_mus, 2%nat, 1%nat, second_layer, 1, (fun _ => 0), (fun _ _ => 1).
  refine (conj SD (conj _ (conj R1_neq_R0 (conj _ (conj _ _))))).
  - intros _ k _. cbn. lra.
  - intros [|jj] J i _; cbn; lra.
  - intros dx v jj k J K. destruct SD as (_ & SD). destruct (SD jj J) as (_ & _ & _ & A).
    destruct (single_dn_is (view two_atm jj) dx v (two_mus jj) 2 second_layer 1 {| val := 0; der := fun _ => 0 |} k A R1_neq_R0 K) as (e & E & _). eexists; exact E.
  - intros a ina. unfold single_dn_a. destruct (Req_EM_T 1 0); [reflexivity|]. cbv zeta. reflexivity.
Qed.
(** Without a beam the forward run answers with zeros and leaves nothing for the adjoint, which reads it all the same *)
Theorem C43_no_sun_refuted : exists x mu n m q I_in g, all_sound n m x mu q /\
  (forall dx v jj k, (jj < m)%nat -> (k < nu q)%nat -> exists e, single_up (view x jj) dx v (mu jj) n q 0 {| val := I_in jj; der := fun _ => 0 |} k = Some e) /\
  forall a ina, single_up_a x mu m n q 0 I_in g a ina = None.
Proof.
  exists two_atm, two_mus, 1%nat, 1%nat, top_level, (fun _ => 0), (fun _ _ => 1). refine (conj top_sound (conj _ _)).
  - intros dx v jj k J K. unfold single_up. destruct (Req_EM_T 0 0); [|exfalso; lra]. cbn [nu top_level] in *. destruct (Nat.ltb_spec k 1); [eexists; reflexivity|lia].
  - intros a ina. unfold single_up_a. destruct (Req_EM_T 0 0); [reflexivity|exfalso; lra].
Qed.

Print Assumptions C43_up_adjoint.
Print Assumptions C43_down_adjoint.
Print Assumptions C43_up_gradient.
Print Assumptions C43_down_gradient.
Print Assumptions C43_correction_up_adjoint.
Print Assumptions C43_correction_down_adjoint.
Print Assumptions C43_entering_lost_refuted.
Print Assumptions C43_correction_entering_refuted.
Print Assumptions C43_below_top_refuted.
Print Assumptions C43_no_sun_refuted.
