(** C42: the single scattering solver, and the single scattering corrections, are the solution of the equation of transfer. *)
From Coq Require Import Reals Lra Lia Bool Arith.
From Verif Require Import Base SingleModel SingleSpec DeltaMProofs BeamProofs SingleProofs.
Open Scope R_scope.

Lemma unit_nz : forall F0 mu, F0 <> 0 -> 0 < mu -> unit_of F0 mu <> 0.
Proof.
  intros F0 mu H M. unfold unit_of. pose proof PI_RGT_0. apply Rmult_integral_contrapositive_currified.
  - unfold Rdiv. rewrite Rmult_1_l. apply Rinv_neq_0_compat. lra.
  - unfold Rdiv. apply Rmult_integral_contrapositive_currified; [exact H|apply Rinv_neq_0_compat; lra].
Qed.
Lemma up_nz : forall mu s, 0 < mu -> 0 <= s -> 1 / mu + s <> 0.
Proof. intros mu s M H. assert (0 < 1 / mu) by (apply Rdiv_lt_0_compat; lra). lra. Qed.

Lemma single_up_is : forall x dx v mu n q F0 I_in k, asked n (nu q) (ul q) (taus q) -> F0 <> 0 -> (k < nu q)%nat ->
  single_up x dx v mu n q F0 I_in k = Some (times (unit_of F0 mu) (up_out x dx v mu n q (divided (unit_of F0 mu) I_in) k)).
Proof.
  intros x dx v mu n q F0 I_in k A H K. unfold single_up. destruct (Req_EM_T F0 0); [contradiction|]. cbv zeta.
  destruct (up_runs x dx v mu n q (divided (unit_of F0 mu) I_in) A) as (s & -> & O).
  rewrite (proj2 (Nat.ltb_lt _ _) K), (O k K). reflexivity.
Qed.
Lemma single_dn_is : forall x dx v mu n q F0 I_in k, asked n (nu q) (ul q) (taus q) -> F0 <> 0 -> (k < nu q)%nat ->
  exists e, single_dn x dx v mu q F0 I_in k = Some (times (unit_of F0 mu) e) /\ same e (dn_out x dx v mu q (divided (unit_of F0 mu) I_in) k).
Proof.
  intros x dx v mu n q F0 I_in k A H K. unfold single_dn. destruct (Req_EM_T F0 0); [contradiction|]. cbv zeta.
  destruct (dn_runs x dx v mu n q (divided (unit_of F0 mu) I_in) A) as (s & -> & O).
  rewrite (proj2 (Nat.ltb_lt _ _) K). destruct (O k K) as (e & -> & S). exists e. split; [reflexivity|exact S].
Qed.
Lemma undivided : forall b e, b <> 0 -> val (divided b e) * b = val e.
Proof. intros b e B. cbn. field. exact B. Qed.

(** What is accepted: layers that are not empty, a sun above the horizon in every layer, a direction above the horizon *)
Definition sound (n : nat) (x : lay) (mu : R) (q : places) : Prop :=
  (0 < n)%nat /\ 0 < mu /\ (forall i, (i < n)%nat -> 0 < lt x i /\ 0 <= sl x i) /\ asked n (nu q) (ul q) (taus q).
(** Looking down along the beam is excluded: the code divides by sl - 1 / mu *)
Definition off_beam (n : nat) (x : lay) (mu : R) : Prop := forall i, (i < n)%nat -> sl x i - 1 / mu <> 0.
Notation source F0 x := (beam_source F0 (om x) (ph x) (bt x) (sl x)).

(** At every output the upwelling radiance is that of the field that satisfies the equation of transfer *)
Theorem C42_up_exact : forall x dx v mu n q F0 I_in F, sound n x mu q -> inside (nu q) (ul q) (ut q) (lt x) (taus q) -> F0 <> 0 ->
  goes_up n (lt x) mu (source F0 x) (val I_in) F ->
  forall k, (k < nu q)%nat -> exists e, single_up x dx v mu n q F0 I_in k = Some e /\ wanted n (lt x) F (taus q) (ul q k) (ut q k) (val e).
Proof.
  intros x dx v mu n q F0 I_in F (N & M & L & A) IN H G k K. eexists. split; [apply single_up_is; assumption|].
  cbn [times val]. apply (up_out_exact x dx v mu F0 n); [lra|intros i Hi; apply L; exact Hi| | |exact N|exact A|exact IN|exact K].
  - intros i Hi. apply up_nz; [exact M|apply L; exact Hi].
  - rewrite undivided by (apply unit_nz; assumption). exact G.
Qed.
(** ... and the downwelling radiance too *)
Theorem C42_down_exact : forall x dx v mu n q F0 I_in F, sound n x mu q -> inside (nu q) (ul q) (ut q) (lt x) (taus q) -> F0 <> 0 ->
  off_beam n x mu -> goes_down n (lt x) mu (source F0 x) (val I_in) F ->
  forall k, (k < nu q)%nat -> exists e, single_dn x dx v mu q F0 I_in k = Some e /\ wanted n (lt x) F (taus q) (ul q k) (ut q k) (val e).
Proof.
  intros x dx v mu n q F0 I_in F (N & M & L & A) IN H OFF G k K.
  destruct (single_dn_is x dx v mu n q F0 I_in k A H K) as (e & -> & (S & _)). eexists. split; [reflexivity|].
  cbn [times val]. rewrite S. apply (dn_out_exact x dx v mu F0 n); [lra|intros i Hi; apply L; exact Hi|exact OFF| |exact N|exact A|exact IN|exact K].
  rewrite undivided by (apply unit_nz; assumption). exact G.
Qed.
(** Such fields exist, so the two theorems say something about every input *)
Theorem C42_fields_exist : forall x mu n q F0 b, sound n x mu q -> F0 <> 0 ->
  (exists F, goes_up n (lt x) mu (source F0 x) b F) /\ (off_beam n x mu -> exists F, goes_down n (lt x) mu (source F0 x) b F).
Proof.
  intros x mu n q F0 b (N & M & L & A) H. pose proof (unit_nz F0 mu H M) as U.
  set (I := divided (unit_of F0 mu) {| val := b; der := fun _ => 0 |}).
  assert (val I * unit_of F0 mu = b) as E by (unfold I; rewrite undivided by exact U; reflexivity).
  split.
  - eexists. rewrite <- E. apply (up_field x (fun _ => x) (fun _ _ => false)); [lra|intros i Hi; apply L; exact Hi|].
    intros i Hi. apply up_nz; [exact M|apply L; exact Hi].
  - intros OFF. eexists. rewrite <- E. apply (dn_field x (fun _ => x) (fun _ _ => false)); [lra|exact OFF].
Qed.

(** ** Derivatives: the inputs move with [s]; a depth asked for keeps its place relative to its layer *)
Definition carried (q : places) (X : R -> lay) (s0 s : R) : places :=
  {| nu := nu q; ul := ul q; ut := fun k => ut q k * lt (X s) (ul q k) / lt (X s0) (ul q k); taus := taus q |}.
Definition declared (n j : nat) (v : varied) (dx : nat -> lay) : Prop := forall i, (i < n)%nat -> v i j = false -> ph (dx j) i = 0.

Lemma carried_ut : forall q X s0 l u, (forall i, (i < l)%nat -> 0 < lt (X s0) i) -> forall d, (u < l)%nat ->
  derivable_pt_lim (fun s => lt (X s) u) s0 d -> forall k, ul q k = u ->
  derivable_pt_lim (fun s => ut (carried q X s0 s) k) s0 (ut q k * d / lt (X s0) u).
Proof.
  intros q X s0 l u L d U D k E. cbn [ut carried]. rewrite E. specialize (L u U).
  eapply dl_eq; [apply dl_div; [apply dl_scal; exact D|apply dl_const|lra]|cbv beta; field; lra].
Qed.
Lemma carried_now : forall q X s0 k, lt (X s0) (ul q k) <> 0 -> ut (carried q X s0 s0) k = ut q k.
Proof. intros q X s0 k H. cbn. field. exact H. Qed.

Theorem C42_up_derivs : forall X s0 dx v mu n q F0 (I_in : R -> elem) j, sound n (X s0) mu q -> F0 <> 0 ->
  moving n s0 X (dx j) -> declared n j v dx -> derivable_pt_lim (fun s => val (I_in s)) s0 (der (I_in s0) j) ->
  forall k, (k < nu q)%nat -> exists y e,
    (forall s, exists e', single_up (X s) dx v mu n (carried q X s0 s) F0 (I_in s) k = Some e' /\ val e' = y s) /\
    single_up (X s0) dx v mu n q F0 (I_in s0) k = Some e /\ derivable_pt_lim y s0 (der e j).
Proof.
  intros X s0 dx v mu n q F0 I_in j (N & M & L & A) H MV DE DI k K. set (b := unit_of F0 mu).
  pose proof (unit_nz F0 mu H M) as U. fold b in U.
  assert (forall i, (i < n)%nat -> 1 / mu + sl (X s0) i <> 0) as NZ by (intros i Hi; apply up_nz; [exact M|apply L; exact Hi]).
  assert (forall i, (i < n)%nat -> lt (X s0) i <> 0) as LN by (intros i Hi; destruct (L i Hi); lra).
  assert (mu <> 0) as MN by lra.
  assert (follows s0 j (fun s => divided b (I_in s))) as DI'.
  { unfold follows. cbn [divided val der]. eapply dl_eq; [apply dl_div; [exact DI|apply dl_const|exact U]|cbv beta; field; exact U]. }
  exists (fun s => val (times b (up_out (X s) dx v mu n (carried q X s0 s) (divided b (I_in s)) k))). eexists. refine (conj _ (conj _ _)).
  - intros s. eexists. split; [apply single_up_is; assumption|reflexivity].
  - apply single_up_is; assumption.
  - fold b. cbn [times val der].
    eapply dl_eq; [apply dl_mult; [|apply dl_const]|cbv beta; rewrite Rmult_0_r, Rplus_0_r; reflexivity].
    unfold up_out. cbn [carried taus ul nu]. unfold asked in A. destruct (taus q).
    + destruct A as (_ & A & _). specialize (A k K).
      eapply dl_eq; [apply (up_layer_deriv X s0 dx v mu n j MN MV DE (ul q k) (ut q k) (fun s => ut (carried q X s0 s) k))|].
      * exact A.
      * apply NZ. exact A.
      * apply (up_at_deriv X s0 dx v mu n j MN MV DE); [lia|exact NZ|exact DI'].
      * apply carried_now. apply LN. exact A.
      * apply (carried_ut q X s0 n); [intros i Hi; apply L; exact Hi|exact A|apply MV; exact A|reflexivity].
      * cbv beta. rewrite carried_now by (apply LN; exact A). reflexivity.
    + apply (up_at_deriv X s0 dx v mu n j MN MV DE); [lia|exact NZ|exact DI'].
Qed.
Theorem C42_down_derivs : forall X s0 dx v mu n q F0 (I_in : R -> elem) j, sound n (X s0) mu q -> off_beam n (X s0) mu -> F0 <> 0 ->
  moving n s0 X (dx j) -> declared n j v dx -> derivable_pt_lim (fun s => val (I_in s)) s0 (der (I_in s0) j) ->
  forall k, (k < nu q)%nat -> exists y e,
    (forall s, exists e', single_dn (X s) dx v mu (carried q X s0 s) F0 (I_in s) k = Some e' /\ val e' = y s) /\
    single_dn (X s0) dx v mu q F0 (I_in s0) k = Some e /\ derivable_pt_lim y s0 (der e j).
Proof.
  intros X s0 dx v mu n q F0 I_in j (N & M & L & A) NZ H MV DE DI k K. set (b := unit_of F0 mu).
  pose proof (unit_nz F0 mu H M) as U. fold b in U. unfold off_beam in NZ.
  assert (forall i, (i < n)%nat -> lt (X s0) i <> 0) as LN by (intros i Hi; destruct (L i Hi); lra).
  assert (mu <> 0) as MN by lra.
  assert (follows s0 j (fun s => divided b (I_in s))) as DI'.
  { unfold follows. cbn [divided val der]. eapply dl_eq; [apply dl_div; [exact DI|apply dl_const|exact U]|cbv beta; field; exact U]. }
  destruct (single_dn_is (X s0) dx v mu n q F0 (I_in s0) k A H K) as (e & Ee & (_ & Se)).
  exists (fun s => val (times b (dn_out (X s) dx v mu (carried q X s0 s) (divided b (I_in s)) k))), (times b e). refine (conj _ (conj _ _)).
  - intros s. destruct (single_dn_is (X s) dx v mu n (carried q X s0 s) F0 (I_in s) k A H K) as (e' & E' & (S' & _)).
    eexists. split; [exact E'|]. cbn [times val]. fold b. fold b in S'. rewrite S'. reflexivity.
  - exact Ee.
  - cbn [times val der]. fold b in Se. rewrite (Se j).
    eapply dl_eq; [apply dl_mult; [|apply dl_const]|cbv beta; rewrite Rmult_0_r, Rplus_0_r; reflexivity].
    unfold dn_out. cbn [carried taus ul nu].
    assert (ul q k <= n)%nat as LE by (apply (ask_le n q A); exact K). unfold asked in A. destruct (taus q).
    + destruct A as (_ & A & _). specialize (A k K).
      eapply dl_eq; [apply (dn_layer_deriv X s0 dx v mu n j MN MV DE (ul q k) (ut q k) (fun s => ut (carried q X s0 s) k))|].
      * exact A.
      * apply NZ. exact A.
      * apply (dn_at_deriv X s0 dx v mu n j MN MV LN DE); [lia|exact NZ|exact DI'].
      * apply carried_now. apply LN. exact A.
      * apply (carried_ut q X s0 n); [intros i Hi; apply L; exact Hi|exact A|apply MV; exact A|reflexivity].
      * cbv beta. rewrite carried_now by (apply LN; exact A). reflexivity.
    + apply (dn_at_deriv X s0 dx v mu n j MN MV LN DE); [exact LE|exact NZ|exact DI'].
Qed.

(** ** The corrections: what the full phase function adds to the truncated one, whatever enters at the boundary *)
Definition extra (F0 : R) (x : lay) (full trun : scattering) : field := fun i t => source F0 (scat x full) i t - source F0 (scat x trun) i t.

Lemma wanted_less : forall n thick F G D t l u a b, (forall i s, F i s = D i s + G i s) ->
  wanted n thick F t l u a -> wanted n thick G t l u b -> wanted n thick D t l u (a - b).
Proof.
  intros n thick F G D [|] l u a b E; unfold wanted.
  - intros -> ->. rewrite E. ring.
  - intros (A1 & A2) (B1 & B2). split; intros H; [rewrite (A1 H), (B1 H)|rewrite (A2 H), (B2 H)]; rewrite E; ring.
Qed.
Theorem C42_correction_up_exact : forall x dx trun full dtrun dfull v mu n q F0 I_in D, sound n x mu q ->
  inside (nu q) (ul q) (ut q) (lt x) (taus q) -> F0 <> 0 -> goes_up n (lt x) mu (extra F0 x full trun) 0 D ->
  forall k, (k < nu q)%nat -> exists e, correction_up x dx trun full dtrun dfull v mu n q F0 I_in k = Some e /\
    wanted n (lt x) D (taus q) (ul q k) (ut q k) (val e).
Proof.
  intros x dx trun full dtrun dfull v mu n q F0 I_in D SD IN H G k K.
  destruct (proj1 (C42_fields_exist (scat x trun) mu n q F0 (val I_in) SD H)) as (T & GT).
  assert (goes_up n (lt x) mu (source F0 (scat x full)) (val I_in) (fun i t => D i t + T i t)) as GF.
  { destruct G as (G1 & G2 & G3), GT as (T1 & T2 & T3). destruct SD as (_ & M & _). refine (conj _ (conj _ _)).
    - intros i t Hi Ht. eapply dl_eq; [apply dl_plus; [exact (G1 i t Hi Ht)|exact (T1 i t Hi Ht)]|]. unfold extra. cbv beta. field. lra.
    - intros i Hi. rewrite (G2 i Hi). f_equal. exact (T2 i Hi).
    - intros i Hi. rewrite (G3 i Hi). etransitivity; [|exact (T3 i Hi)]. apply Rplus_0_l. }
  destruct (C42_up_exact (scat x full) (fun j => scat (dx j) (dfull j)) v mu n q F0 I_in _ SD IN H GF k K) as (f & Ef & Wf).
  destruct (C42_up_exact (scat x trun) (fun j => scat (dx j) (dtrun j)) v mu n q F0 I_in _ SD IN H GT k K) as (t & Et & Wt).
  exists (less f t). split; [unfold correction_up, minus; rewrite Ef, Et; reflexivity|].
  exact (wanted_less _ _ _ _ D _ _ _ _ _ (fun i s => eq_refl) Wf Wt).
Qed.
Theorem C42_correction_down_exact : forall x dx trun full dtrun dfull v mu n q F0 I_in D, sound n x mu q ->
  inside (nu q) (ul q) (ut q) (lt x) (taus q) -> F0 <> 0 -> off_beam n x mu -> goes_down n (lt x) mu (extra F0 x full trun) 0 D ->
  forall k, (k < nu q)%nat -> exists e, correction_dn x dx trun full dtrun dfull v mu q F0 I_in k = Some e /\
    wanted n (lt x) D (taus q) (ul q k) (ut q k) (val e).
Proof.
  intros x dx trun full dtrun dfull v mu n q F0 I_in D SD IN H OFF G k K.
  destruct (proj2 (C42_fields_exist (scat x trun) mu n q F0 (val I_in) SD H) OFF) as (T & GT).
  assert (goes_down n (lt x) mu (source F0 (scat x full)) (val I_in) (fun i t => D i t + T i t)) as GF.
  { destruct G as (G1 & G2 & G3), GT as (T1 & T2 & T3). destruct SD as (_ & M & _). refine (conj _ (conj _ _)).
    - intros i t Hi Ht. eapply dl_eq; [apply dl_plus; [exact (G1 i t Hi Ht)|exact (T1 i t Hi Ht)]|]. unfold extra. cbv beta. field. lra.
    - intros i Hi. rewrite (G2 i Hi). f_equal. exact (T2 i Hi).
    - rewrite G3, T3. apply Rplus_0_l. }
  destruct (C42_down_exact (scat x full) (fun j => scat (dx j) (dfull j)) v mu n q F0 I_in _ SD IN H OFF GF k K) as (f & Ef & Wf).
  destruct (C42_down_exact (scat x trun) (fun j => scat (dx j) (dtrun j)) v mu n q F0 I_in _ SD IN H OFF GT k K) as (t & Et & Wt).
  exists (less f t). split; [unfold correction_dn, minus; rewrite Ef, Et; reflexivity|].
  exact (wanted_less _ _ _ _ D _ _ _ _ _ (fun i s => eq_refl) Wf Wt).
Qed.
Definition scat_family (X : R -> lay) (W : R -> scattering) : R -> lay := fun s => scat (X s) (W s).
Theorem C42_correction_derivs : forall X s0 dx TR FU dtrun dfull v mu n q F0 (I_in : R -> elem) j, sound n (X s0) mu q -> F0 <> 0 ->
  moving n s0 (scat_family X TR) (scat (dx j) (dtrun j)) -> moving n s0 (scat_family X FU) (scat (dx j) (dfull j)) ->
  (forall i, (i < n)%nat -> v i j = false -> s_ph (dtrun j) i = 0 /\ s_ph (dfull j) i = 0) ->
  derivable_pt_lim (fun s => val (I_in s)) s0 (der (I_in s0) j) ->
  forall k, (k < nu q)%nat ->
    (exists y e, (forall s, exists e', correction_up (X s) dx (TR s) (FU s) dtrun dfull v mu n (carried q X s0 s) F0 (I_in s) k = Some e' /\ val e' = y s) /\
      correction_up (X s0) dx (TR s0) (FU s0) dtrun dfull v mu n q F0 (I_in s0) k = Some e /\ derivable_pt_lim y s0 (der e j)) /\
    (off_beam n (X s0) mu ->
     exists y e, (forall s, exists e', correction_dn (X s) dx (TR s) (FU s) dtrun dfull v mu (carried q X s0 s) F0 (I_in s) k = Some e' /\ val e' = y s) /\
      correction_dn (X s0) dx (TR s0) (FU s0) dtrun dfull v mu q F0 (I_in s0) k = Some e /\ derivable_pt_lim y s0 (der e j)).
Proof.
  intros X s0 dx TR FU dtrun dfull v mu n q F0 I_in j SD H MT MF DE DI k K.
  assert (declared n j v (fun j => scat (dx j) (dtrun j))) as DT by (intros i Hi V; apply (DE i Hi V)).
  assert (declared n j v (fun j => scat (dx j) (dfull j))) as DF by (intros i Hi V; apply (DE i Hi V)).
  split.
  - destruct (C42_up_derivs (scat_family X TR) s0 (fun j => scat (dx j) (dtrun j)) v mu n q F0 I_in j SD H MT DT DI k K) as (yt & et & At & Et & Dt).
    destruct (C42_up_derivs (scat_family X FU) s0 (fun j => scat (dx j) (dfull j)) v mu n q F0 I_in j SD H MF DF DI k K) as (yf & ef & Af & Ef & Df).
    exists (fun s => yf s - yt s), (less ef et). refine (conj _ (conj _ _)).
    + intros s. destruct (At s) as (t' & Et' & Vt'), (Af s) as (f' & Ef' & Vf'). exists (less f' t'). split; [|cbn; congruence].
      unfold correction_up, minus, scat_family in *. cbv zeta. 
      change (carried q (fun s => scat (X s) (TR s)) s0 s) with (carried q X s0 s) in Et'.
      change (carried q (fun s => scat (X s) (FU s)) s0 s) with (carried q X s0 s) in Ef'. rewrite Et', Ef'. reflexivity.
    + unfold correction_up, minus, scat_family in *. rewrite Et, Ef. reflexivity.
    + apply dl_minus; assumption.
  - intros OFF.
    destruct (C42_down_derivs (scat_family X TR) s0 (fun j => scat (dx j) (dtrun j)) v mu n q F0 I_in j SD OFF H MT DT DI k K) as (yt & et & At & Et & Dt).
    destruct (C42_down_derivs (scat_family X FU) s0 (fun j => scat (dx j) (dfull j)) v mu n q F0 I_in j SD OFF H MF DF DI k K) as (yf & ef & Af & Ef & Df).
    exists (fun s => yf s - yt s), (less ef et). refine (conj _ (conj _ _)).
    + intros s. destruct (At s) as (t' & Et' & Vt'), (Af s) as (f' & Ef' & Vf'). exists (less f' t'). split; [|cbn; congruence].
      unfold correction_dn, minus, scat_family in *. cbv zeta.
      change (carried q (fun s => scat (X s) (TR s)) s0 s) with (carried q X s0 s) in Et'.
      change (carried q (fun s => scat (X s) (FU s)) s0 s) with (carried q X s0 s) in Ef'. rewrite Et', Ef'. reflexivity.
    + unfold correction_dn, minus, scat_family in *. rewrite Et, Ef. reflexivity.
    + apply dl_minus; assumption.
Qed.

(** ** A concrete case: two layers, output at the top, in the middle of the second layer and at the bottom *)
Definition two_layers : lay := {| om := fun _ => 9 / 10; lt := fun i => INR (S i); ph := fun _ => 1; bt := fun _ => 1; sl := fun _ => 3 |}.
Definition three_depths : places :=
  {| nu := 3; ul := fun k => match k with O => 0 | _ => 1 end%nat; ut := fun k => match k with 2%nat => 2 | 1%nat => 1 | _ => 0 end; taus := true |}.
Definition two_levels : places := {| nu := 2; ul := fun k => match k with O => 0 | _ => 2 end%nat; ut := fun _ => 0; taus := false |}.
Example two_layers_sound : sound 2 two_layers (1 / 2) three_depths /\ sound 2 two_layers (1 / 2) two_levels /\
  off_beam 2 two_layers (1 / 2) /\ inside 3 (ul three_depths) (ut three_depths) (lt two_layers) true.
Proof.
  assert (forall i, (i < 2)%nat -> 0 < lt two_layers i /\ 0 <= sl two_layers i) as L.
  { intros i _. cbn [lt sl two_layers]. split; [apply lt_0_INR; lia|lra]. }
  refine (conj _ (conj _ (conj _ _))).
  - refine (conj _ (conj _ (conj L _))); [lia|lra|]. refine (conj _ (conj _ _)); cbn; [lia| |]; intros [|[|[|k]]] K; lia.
  - refine (conj _ (conj _ (conj L _))); [lia|lra|]. refine (conj _ (conj _ _)); cbn; [lia| |]; intros [|[|k]] K; lia.
  - intros i _. cbn [sl two_layers]. lra.
  - intros _ [|[|[|k]]] K; cbn; lra || lia.
Qed.

(** ** Two things that do not hold *)
(** Without sun the result is zero, whatever enters: the radiation of a warm surface or of an illuminated top is lost *)
Definition clear1 : lay := {| om := fun _ => 0; lt := fun _ => 1; ph := fun _ => 0; bt := fun _ => 0; sl := fun _ => 0 |}.
Definition at_top : places := {| nu := 1; ul := fun _ => 0%nat; ut := fun _ => 0; taus := false |}.
Theorem C42_no_sun_refuted : exists x mu n q I_in F e dx v, sound n x mu q /\
  goes_up n (lt x) mu (source 0 x) (val I_in) F /\ single_up x dx v mu n q 0 I_in 0%nat = Some e /\ (0 < nu q)%nat /\
  ~ wanted n (lt x) F (taus q) (ul q 0%nat) (ut q 0%nat) (val e).
Proof.
  exists clear1, 1, 1%nat, at_top, {| val := 1; der := fun _ => 0 |}, (fun _ t => exp (t - 1)), {| val := 0; der := fun _ => 0 |},
    (fun _ => clear1), (fun _ _ => false).
  refine (conj _ (conj _ (conj _ (conj _ _)))).
  - refine (conj _ (conj _ (conj _ _))); [lia|lra|intros; cbn; lra|]. refine (conj _ (conj _ _)); cbn; [lia|intros; lia|intros; lia].
  - refine (conj _ (conj _ _)).
    + intros i t _ _. eapply dl_eq; [apply (dl_exp (fun t => t - 1)); apply dl_minus; [apply dl_id|apply dl_const]|].
      unfold beam_source; cbn. field. apply PI_neq0.
    + intros; lia.
    + intros i _. cbn. replace (1 - 1) with 0 by ring. apply exp_0.
  - unfold single_up. destruct (Req_EM_T 0 0) as [_|N]; [reflexivity|now destruct N].
  - cbn. lia.
  - intros (W & _). specialize (W ltac:(cbn; lia)). cbn in W. pose proof (exp_pos (0 - 1)). lra.
Qed.
(** The derivatives at a given optical depth are not taken at that depth: the place moves with the layer *)
Definition mid_depth : places := {| nu := 1; ul := fun _ => 0%nat; ut := fun _ => 1 / 2; taus := true |}.
Definition growing (s : R) : lay := {| om := fun _ => 0; lt := fun _ => 1 + s; ph := fun _ => 0; bt := fun _ => 0; sl := fun _ => 0 |}.
Definition growing_l : lay := {| om := fun _ => 0; lt := fun _ => 1; ph := fun _ => 0; bt := fun _ => 0; sl := fun _ => 0 |}.
Theorem C42_fixed_depth_refuted : exists X s0 dx v mu n q F0 I_in y e d, sound n (X s0) mu q /\ inside (nu q) (ul q) (ut q) (lt (X s0)) (taus q) /\
  moving n s0 X (dx 0%nat) /\
  (forall s, exists e', single_up (X s) dx v mu n q F0 I_in 0%nat = Some e' /\ val e' = y s) /\ der I_in 0%nat = 0 /\
  single_up (X s0) dx v mu n q F0 I_in 0%nat = Some e /\ derivable_pt_lim y s0 d /\ der e 0%nat <> d.
Proof.
  assert (unit_of (4 * PI) 1 = 1) as U1 by (unfold unit_of; field; apply PI_neq0).
  set (II := {| val := 1; der := fun _ => 0 |}).
  assert (4 * PI <> 0) as FN by (pose proof PI_RGT_0; lra).
  assert (sound 1 (growing 0) 1 mid_depth) as SD.
  { refine (conj _ (conj _ (conj _ _))); [lia|lra|intros; cbn; lra|]. refine (conj _ (conj _ _)); cbn; [lia|intros; lia|intros; lia]. }
  assert (forall s, single_up (growing s) (fun _ => growing_l) (fun _ _ => false) 1 1 mid_depth (4 * PI) II 0%nat =
    Some (times 1 (up_layer (growing s) (fun _ => growing_l) (fun _ _ => false) 1 0 (1 / 2) (divided 1 II)))) as E.
  { intros s. rewrite single_up_is; [rewrite U1; reflexivity| |exact FN|cbn; lia].
    refine (conj _ (conj _ _)); cbn; [lia|intros; lia|intros; lia]. }
  assert (forall s, val (times 1 (up_layer (growing s) (fun _ => growing_l) (fun _ _ => false) 1 0 (1 / 2) (divided 1 II))) = exp (- (1 / 2 + s))) as Y.
  { intros s. unfold up_layer, times, divided. cbn [val om lt ph bt sl growing II]. replace (- (1 + s - 1 / 2) / 1) with (- (1 / 2 + s)) by field. field. }
  exists growing, 0, (fun _ => growing_l), (fun _ _ => false), 1, 1%nat, mid_depth, (4 * PI), II, (fun s => exp (- (1 / 2 + s))). eexists.
  exists (- (1) * exp (- (1 / 2 + 0))).
  refine (conj SD (conj _ (conj _ (conj _ (conj _ (conj (E 0) (conj _ _))))))).
  - intros _ k K. cbn. lra.
  - refine (conj _ (conj _ (conj _ (conj _ _)))); intros i Hi; cbn [om lt ph bt sl growing growing_l]; try apply dl_const.
    apply (dl_eq _ _ (0 + 1)); [apply (dl_plus (fun _ => 1) (fun s => s)); [apply dl_const|apply dl_id]|ring].
  - intros s. eexists. split; [apply E|apply Y].
  - reflexivity.
  - apply dl_exp_neg. apply (dl_eq _ _ (0 + 1)); [apply (dl_plus (fun _ => 1 / 2) (fun s => s)); [apply dl_const|apply dl_id]|ring].
  - unfold up_layer, times, divided. cbn [val der om lt ph bt sl growing growing_l II].
    replace (- (1 + 0 - 1 / 2) / 1) with (- (1 / 2 + 0)) by field. pose proof (exp_pos (- (1 / 2 + 0))) as P.
    generalize dependent (exp (- (1 / 2 + 0))). intros w Pw Q. field_simplify in Q. lra.
Qed.
Print Assumptions C42_up_exact.
Print Assumptions C42_down_exact.
Print Assumptions C42_fields_exist.
Print Assumptions C42_up_derivs.
Print Assumptions C42_down_derivs.
Print Assumptions C42_correction_up_exact.
Print Assumptions C42_correction_down_exact.
Print Assumptions C42_correction_derivs.
Print Assumptions C42_no_sun_refuted.
Print Assumptions C42_fixed_depth_refuted.
