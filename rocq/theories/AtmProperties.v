(** C47: the radiances of an atmosphere of layers of the eigenvalue solver above a surface are those of the equation of transfer. *)
From Coq Require Import Reals Bool Arith Lia Lra ZArith.
From Verif Require Import Base Dbl DerivsModel DerivsSpec DerivsProofs DerivsProperties DeltaMSpec DeltaMProofs AddingModel AddingSpec AddingMat AddingDeriv AddingCalls AddingProperties
  RadianceModel RadianceSpec RadianceProofs RadianceProperties SingleProofs
  EigModel EigSpec EigMat EigCore EigProofs EigEnergy EigLayer EigProperties EigDModel EigDSpec EigDProofs EigPath EigDLayer EigDProperties AtmSpec AtmProofs AtmLight.
Open Scope R_scope.

(** What is required of an atmosphere: of each layer what C45 requires, the same directions everywhere, and a surface that does not amplify the light. *)
Definition weights (xs : nat -> slab) : vec := fun i => qw (xs 0%nat) i * qx (xs 0%nat) i.
Definition layers_ok (n m : nat) (dulls : nat -> bool) (solar thermal : bool) (xs : nat -> slab) : Prop :=
  forall k, (k <= m)%nat -> layer_inputs n (dulls k) solar thermal (xs k) /\ qx (xs k) = qx (xs 0%nat) /\ qw (xs k) = qw (xs 0%nat).
Definition surface_ok (n : nat) (g : vec) (Rs : mat) : Prop :=
  forall v, power n g (fun i => total n (fun j => Rs i j * v j)) <= power n g v.
(** The output arrays hold the light at the output levels: the top of the first layer, the bottom of the last one. *)
Definition holds_light (n m nu : nat) (ul : nat -> nat) (xs : nat -> slab) (r : rad) (Ip Im : nat -> beam) : Prop :=
  forall i q, (i < nu)%nat -> (q < n)%nat ->
    (ul i = 0%nat -> I_p r i q = Ip 0%nat q 0 /\ I_m r i q = Im 0%nat q 0) /\
    (ul i = S m -> I_p r i q = Ip m q (ltau (xs m)) /\ I_m r i q = Im m q (ltau (xs m))).

Section Values.
Variable n : nat.
Variable solve : nat -> mat -> mat -> mat.
Variable eig : mat -> vec * mat.
Hypothesis Pos : (0 < n)%nat.
Hypothesis Solve1 : solver n (solve n).
Hypothesis EigS : eigensolver n eig.
Variables (solar thermal : bool).
Hypothesis Solve2 : thermal = true -> solver (n + n) (solve (n + n)%nat).
Variable m : nat.
Variable dulls : nat -> bool.
Variable xs : nat -> slab.
Variable ls : nat -> layer.
Hypothesis Ok_layers : layers_ok n m dulls solar thermal xs.
Hypothesis Done_layers : forall k, (k <= m)%nat -> layer_of n solve eig (dulls k) solar thermal (xs k) = Done (ls k).
Notation g := (weights xs).
Lemma g_pos : forall i, (i < n)%nat -> 0 <= g i.
Proof using Ok_layers.
  intros i Hi. destruct (Ok_layers 0%nat (Nat.le_0_l m)) as (((P & _) & _) & _). destruct (P i Hi). unfold weights. apply Rmult_le_pos; lra.
Qed.
Lemma st_exact : forall k, (k <= m)%nat -> forall d1 u2 u1 d2, interacts n (ls k) d1 u2 u1 d2 <-> exists Ip Im, lit n solar thermal (xs k) Ip Im /\ ends n (ltau (xs k)) Ip Im d1 u2 u1 d2.
Proof.
  intros k Hk. destruct (Ok_layers k Hk) as (In & _). exact (C45_layer_exact n solve eig (dulls k) solar thermal (xs k) (ls k) Pos Solve1 Solve2 EigS In (Done_layers k Hk)).
Qed.
Lemma st_absorbing : forall k, (k <= m)%nat -> absorbing n g (ls k).
Proof.
  intros k Hk. destruct (Ok_layers k Hk) as ((Sc & LP & _) & Ex & Ew). unfold weights. rewrite <- Ex, <- Ew.
  apply (light_absorbing n solar thermal (xs k) (ls k) Sc LP). intros. apply (st_exact k Hk). assumption.
Qed.
Lemma st_unique : forall k, (k <= m)%nat -> forall Ip Im Ip' Im', lit n solar thermal (xs k) Ip Im -> lit n solar thermal (xs k) Ip' Im' ->
  (forall i, (i < n)%nat -> Im i 0 = Im' i 0 /\ Ip i (ltau (xs k)) = Ip' i (ltau (xs k))) -> forall i s, (i < n)%nat -> 0 <= s <= ltau (xs k) -> Ip i s = Ip' i s /\ Im i s = Im' i s.
Proof.
  intros k Hk. destruct (Ok_layers k Hk) as ((Sc & LP & _) & _). exact (C45_light_unique n solar thermal (xs k) Sc LP).
Qed.
Lemma st_between : forall d u u0 dm, through n m ls d u u0 dm <-> exists Ip Im, between n m solar thermal xs d Ip Im /\
  forall i, (i < n)%nat -> Ip 0%nat i 0 = u0 i /\ Ip m i (ltau (xs m)) = u i /\ Im m i (ltau (xs m)) = dm i.
Proof. apply through_between. exact st_exact. Qed.
Lemma st_field : forall Rs t b u0 dm um, field n m ls {| fR := Rs; fS := b |} t u0 dm um -> exists Ip Im, atmosphere n m solar thermal xs Rs t b Ip Im /\
  forall i, (i < n)%nat -> Ip 0%nat i 0 = u0 i /\ Im 0%nat i 0 = t i /\ Ip m i (ltau (xs m)) = um i /\ Im m i (ltau (xs m)) = dm i.
Proof.
  intros Rs t b u0 dm um (H & F). apply st_between in H. destruct H as (Ip & Im & B & E). exists Ip, Im. split.
  - split; [exact B|]. intros i Hi. destruct (E i Hi) as (_ & -> & _). rewrite (F i Hi). cbn [fR fS]. f_equal. apply total_ext. intros j Hj. destruct (E j Hj) as (_ & _ & ->). reflexivity.
  - intros i Hi. destruct (E i Hi) as (E1 & E2 & E3). destruct B as (_ & _ & T). pose proof (T i Hi). tauto.
Qed.
Lemma st_back : forall Rs t b Ip Im, atmosphere n m solar thermal xs Rs t b Ip Im ->
  field n m ls {| fR := Rs; fS := b |} t (fun i => Ip 0%nat i 0) (fun i => Im m i (ltau (xs m))) (fun i => Ip m i (ltau (xs m))).
Proof.
  intros Rs t b Ip Im (B & F). split.
  - apply st_between. exists Ip, Im. split; [exact B|]. intros. tauto.
  - intros i Hi. rewrite (F i Hi). reflexivity.
Qed.
Lemma st_same : forall Rs t b Ip Im Ip' Im', surface_ok n g Rs -> atmosphere n m solar thermal xs Rs t b Ip Im -> atmosphere n m solar thermal xs Rs t b Ip' Im' -> same_light n m xs Ip Im Ip' Im'.
Proof.
  intros Rs t b Ip Im Ip' Im' Su A A'. destruct (bottom_unique n ls g g_pos m Rs b t _ _ _ _ _ _ st_absorbing Su (st_back _ _ _ _ _ A) (st_back _ _ _ _ _ A')) as (V & _).
  apply (between_unique n solar thermal xs ls g g_pos m st_absorbing st_exact st_unique t); [apply A|apply A'|exact V].
Qed.
End Values.

(** No matrix that adding inverts is singular: the hypotheses of C31 and C38 hold. *)
Theorem C47_adding_regular : forall n solve eig dulls solar thermal m xs ls Rs b, (0 < n)%nat -> solver n (solve n) -> (thermal = true -> solver (n + n) (solve (n + n)%nat)) ->
  eigensolver n eig -> layers_ok n m dulls solar thermal xs -> surface_ok n (weights xs) Rs -> (forall k, (k <= m)%nat -> layer_of n solve eig (dulls k) solar thermal (xs k) = Done (ls k)) ->
  (forall k c, (k < m)%nat -> stands_for n k ls c -> regular n (Rm (ls (S k))) (Rp c)) /\
  (forall c, stands_for n m ls c -> regular n (Rp c) Rs) /\
  (forall k c, (k < m)%nat -> bottom_of n k ls c -> regular n (fR c) (Rm (ls (S k)))) /\
  (forall c, bottom_of n m ls c -> regular n (fR c) Rs) /\
  (forall k c, (k < S m)%nat -> tops n (S m - S k) ls {| fR := Rs; fS := b |} (S k) c -> regular n (fR c) (Rp (ls k))) /\
  (forall k c, (k < m)%nat -> tops n (m - S k) ls {| fR := Rm (ls m); fS := Sp (ls m) |} (S k) c -> regular n (fR c) (Rp (ls k))).
Proof.
  intros n solve eig dulls solar thermal m xs ls Rs b Pos S1 S2 ES Ok Su Dn.
  pose proof (g_pos n solar thermal m dulls xs Ok) as Gp. pose proof (st_absorbing n solve eig Pos S1 ES solar thermal S2 m dulls xs ls Ok Dn) as Ab.
  refine (conj _ (conj _ (conj _ (conj _ (conj _ _))))); intros.
  - apply (pair_regular n (weights xs) Gp ls m Ab); assumption.
  - apply (surface_regular n (weights xs) Gp ls m Ab); assumption.
  - apply (down_regular n (weights xs) Gp ls m Ab); assumption.
  - apply (down_surface_regular n (weights xs) Gp ls m Ab); assumption.
  - apply (up_regular n (weights xs) Gp ls m Ab k c Rs b); assumption.
  - apply (up_open_regular n (weights xs) Gp ls m Ab); assumption.
Qed.
(** The light of an atmosphere is unique. *)
Theorem C47_light_unique : forall n solve eig dulls solar thermal m xs ls Rs t b, (0 < n)%nat -> solver n (solve n) -> (thermal = true -> solver (n + n) (solve (n + n)%nat)) ->
  eigensolver n eig -> layers_ok n m dulls solar thermal xs -> surface_ok n (weights xs) Rs -> (forall k, (k <= m)%nat -> layer_of n solve eig (dulls k) solar thermal (xs k) = Done (ls k)) ->
  forall Ip Im Ip' Im', atmosphere n m solar thermal xs Rs t b Ip Im -> atmosphere n m solar thermal xs Rs t b Ip' Im' -> same_light n m xs Ip Im Ip' Im'.
Proof. intros n solve eig dulls solar thermal m xs ls Rs t b Pos S1 S2 ES Ok Su Dn Ip Im Ip' Im'. eapply (st_same n solve eig Pos S1 ES solar thermal S2 m dulls xs ls); eassumption. Qed.
(** Adding both ways: the light exists, and the arrays hold it. *)
Theorem C47_both_ways : forall n solve eig dulls solar thermal m xs ls Rs t b d first o nu ul ls_l Rs_l t_l b_l x x_l work r,
  (0 < n)%nat -> solver n (solve n) -> (thermal = true -> solver (n + n) (solve (n + n)%nat)) -> eigensolver n eig ->
  layers_ok n m dulls solar thermal xs -> surface_ok n (weights xs) Rs -> (forall k, (k <= m)%nat -> layer_of n solve eig (dulls k) solar thermal (xs k) = Done (ls k)) ->
  l_layers d = S m -> l_solar d = solar -> l_thermal d = thermal -> solar = true \/ thermal = true ->
  (thermal = true -> forall k j, (k < S m)%nat -> (j < l_derivs d)%nat -> ~ emission d k j) -> ends_only (S m) nu ul ->
  exists r' Ip Im, both_ways n (solve n) (S m) (l_derivs d) nu ul ls ls_l (v_down (build_set d first o)) (Some (Rs, Rs_l)) t b t_l b_l x x_l work r = Ok r' /\
    atmosphere n m solar thermal xs Rs t b Ip Im /\ holds_light n m nu ul xs r' Ip Im.
Proof.
  intros n solve eig dulls solar thermal m xs ls Rs t b d first o nu ul ls_l Rs_l t_l b_l x x_l work r Pos S1 S2 ES Ok Su Dn E1 E2 E3 So Em En.
  destruct (C47_adding_regular n solve eig dulls solar thermal m xs ls Rs b Pos S1 S2 ES Ok Su Dn) as (R1 & R2 & _). rewrite <- E2, <- E3 in So. 
  destruct (C38_handle_both_ways n (solve n) d first o m nu ul ls ls_l Rs Rs_l t b t_l b_l x x_l work r Pos S1 E1 So R1) as (_ & H); [intros T; apply Em; congruence|exact En|].
  destruct (H R2) as (r' & up0 & dm & um & B & F & Sh & _). 
  destruct (st_field n solve eig Pos S1 ES solar thermal S2 m dulls xs ls Ok Dn Rs t b _ _ _ F) as (Ip & Im & A & E). exists r', Ip, Im. refine (conj B (conj A _)).
  intros i q Hi Hq. destruct (Sh i Hi) as (S0 & SN). destruct (E q Hq) as (P1 & P2 & P3 & P4). rewrite P1, P2, P3, P4.
  split; intros U; [destruct (S0 U) as (-> & ->)|destruct (SN U) as (-> & ->)]; split; reflexivity.
Qed.
(** Upwards only, the top of the atmosphere *)
Theorem C47_bottom_up : forall n solve eig dulls solar thermal m xs ls Rs t b d first o ls_l Rs_l t_l b_l x x_l r,
  (0 < n)%nat -> solver n (solve n) -> (thermal = true -> solver (n + n) (solve (n + n)%nat)) -> eigensolver n eig ->
  layers_ok n m dulls solar thermal xs -> surface_ok n (weights xs) Rs -> (forall k, (k <= m)%nat -> layer_of n solve eig (dulls k) solar thermal (xs k) = Done (ls k)) ->
  l_layers d = S m -> l_solar d = solar -> l_thermal d = thermal -> solar = true \/ thermal = true ->
  let v := build_set d first o in
  exists r' Ip Im, bottom_up n (solve n) (S m) (l_derivs d) ls ls_l (fun i j => tr (v_layers v i j)) (fun i j => tr (v_sources v i j)) (v_up v) (Some (Rs, Rs_l)) t b t_l b_l x x_l r = Ok r' /\
    atmosphere n m solar thermal xs Rs t b Ip Im /\ forall q, (q < n)%nat -> I_p r' 0%nat q = Ip 0%nat q 0 /\ I_m r' 0%nat q = Im 0%nat q 0.
Proof.
  intros n solve eig dulls solar thermal m xs ls Rs t b d first o ls_l Rs_l t_l b_l x x_l r Pos S1 S2 ES Ok Su Dn E1 E2 E3 So v.
  destruct (C47_adding_regular n solve eig dulls solar thermal m xs ls Rs b Pos S1 S2 ES Ok Su Dn) as (_ & _ & _ & _ & R5 & _). rewrite <- E2, <- E3 in So.
  destruct (C38_handle_bottom_up n (solve n) d first o m ls ls_l Rs Rs_l t b t_l b_l x x_l r S1 E1 So R5) as (r' & up0 & B & (dm & um & F) & Sh1 & Sh2 & _).
  destruct (st_field n solve eig Pos S1 ES solar thermal S2 m dulls xs ls Ok Dn Rs t b _ _ _ F) as (Ip & Im & A & E). exists r', Ip, Im. refine (conj B (conj A _)).
  intros q Hq. destruct (E q Hq) as (P1 & P2 & _). rewrite P1, P2, Sh1, Sh2. split; reflexivity.
Qed.
(** Downwards only, the bottom of the atmosphere: whatever is given as falling on the top, the light is that with nothing falling on it. *)
Theorem C47_top_down : forall n solve eig dulls solar thermal m xs ls Rs t b d first o ls_l Rs_l t_l b_l x x_l r,
  (0 < n)%nat -> solver n (solve n) -> (thermal = true -> solver (n + n) (solve (n + n)%nat)) -> eigensolver n eig ->
  layers_ok n m dulls solar thermal xs -> surface_ok n (weights xs) Rs -> (forall k, (k <= m)%nat -> layer_of n solve eig (dulls k) solar thermal (xs k) = Done (ls k)) ->
  l_layers d = S m -> l_solar d = solar -> l_thermal d = thermal -> solar = true \/ thermal = true ->
  (thermal = true -> forall k j, (k < S m)%nat -> (j < l_derivs d)%nat -> ~ emission d k j) ->
  (thermal = true -> forall j, (j < l_derivs d)%nat -> DerivsSpec.moves (surface_b_l d j) -> exists k, (k <= S m)%nat /\ acts d first k j) ->
  let v := build_set d first o in
  exists r' Ip Im, top_down n (solve n) (S m) (l_derivs d) ls ls_l (fun i j => tr (v_layers v i j)) (fun i j => tr (v_sources v i j)) (v_down v) (Some (Rs, Rs_l)) t b t_l b_l x x_l r = Ok r' /\
    atmosphere n m solar thermal xs Rs (fun _ => 0) b Ip Im /\ forall q, (q < n)%nat -> I_p r' 0%nat q = Ip m q (ltau (xs m)) /\ I_m r' 0%nat q = Im m q (ltau (xs m)).
Proof.
  intros n solve eig dulls solar thermal m xs ls Rs t b d first o ls_l Rs_l t_l b_l x x_l r Pos S1 S2 ES Ok Su Dn E1 E2 E3 So Em Es v.
  destruct (C47_adding_regular n solve eig dulls solar thermal m xs ls Rs b Pos S1 S2 ES Ok Su Dn) as (_ & _ & R3 & R4 & _). rewrite <- E2, <- E3 in So. rewrite <- E3 in Em, Es.
  destruct (C38_handle_top_down n (solve n) d first o m ls ls_l Rs Rs_l t b t_l b_l x x_l r Pos S1 E1 So R3) as (_ & H).
  destruct (H R4 Em Es) as (r' & up0 & dm & um & B & F & Sh1 & Sh2 & _).
  destruct (st_field n solve eig Pos S1 ES solar thermal S2 m dulls xs ls Ok Dn Rs zvec b _ _ _ F) as (Ip & Im & A & E). exists r', Ip, Im. refine (conj B (conj A _)).
  intros q Hq. destruct (E q Hq) as (_ & _ & P3 & P4). rewrite P3, P4, Sh1, Sh2. split; reflexivity.
Qed.

(** * Derivatives *)
Lemma flags_tr : forall z P, flags z P -> tr z = true <-> P.
Proof. intros z P [(-> & H)|(-> & H)]; cbn; split; intros; try assumption; try reflexivity; try discriminate; contradiction. Qed.
Lemma handle_flags : forall d first o i j, (i <= l_layers d)%nat -> (j < l_derivs d)%nat -> let v := build_set d first o in
  flags_ok (l_solar d) (l_thermal d) (tr (v_layers v i j)) (l_solar d && tr (v_beam v i j)) (l_thermal d && tr (v_thermal v i j)) (tr (v_sources v i j)).
Proof.
  intros d first o i j Hi Hj v. pose proof (flags_tr _ _ (C20_layers_exact d first o i j Hi Hj)) as L. pose proof (flags_tr _ _ (C20_sources_exact d first o i j Hi Hj)) as Sr.
  fold v in L, Sr. unfold acts_source in Sr. refine (conj _ (conj _ _)).
  - intros H So. rewrite So. apply (flags_tr _ _ (C20_beam_exact d first o i j So Hi Hj)). exists i. split; [lia|]. apply L, H.
  - intros H Th. rewrite Th. apply (flags_tr _ _ (C20_thermal_exact d first o i j Th Hi Hj)). left. apply L, H.
  - intros H. apply Sr. destruct (l_solar d) eqn:So; [destruct (tr (v_beam v i j)) eqn:B|].
    + left. split; [reflexivity|]. apply (flags_tr _ _ (C20_beam_exact d first o i j So Hi Hj)), B.
    + cbn [andb orb] in H. destruct (l_thermal d) eqn:Th; [|discriminate]. right. split; [reflexivity|]. apply (flags_tr _ _ (C20_thermal_exact d first o i j Th Hi Hj)), H.
    + cbn [andb orb] in H. destruct (l_thermal d) eqn:Th; [|discriminate]. right. split; [reflexivity|]. apply (flags_tr _ _ (C20_thermal_exact d first o i j Th Hi Hj)), H.
Qed.
Lemma unread_flags : forall n solve eig dull solar thermal dl db dt ds x dx old,
  layer_of_l n solve eig dull solar thermal dl (solar && db) (thermal && dt) ds x dx old = layer_of_l n solve eig dull solar thermal dl db dt ds x dx old.
Proof. intros. unfold layer_of_l, dull_layer_l, eig_layer_l, scale_add_l. destruct solar, thermal; reflexivity. Qed.
Lemma around_all : forall p m (P : nat -> R -> Prop), (forall k, (k <= m)%nat -> around p (P k)) -> around p (fun s => forall k, (k <= m)%nat -> P k s).
Proof.
  intros p m P H. induction m as [|m IH].
  - refine (around_imp p _ _ _ (H 0%nat (le_n 0))). intros s Q k Hk. assert (k = 0%nat) as -> by lia. exact Q.
  - refine (around_imp p _ _ _ (around_and p _ _ (IH (fun k Hk => H k ltac:(lia))) (H (S m) (le_n _)))). intros s (Q1 & Q2) k Hk. destruct (Nat.eq_dec k (S m)) as [->|]; [exact Q2|apply Q1; lia].
Qed.
(** An atmosphere that moves with [s]: near [p] it is one that C47_both_ways admits. *)
Definition sound_near n solve eig dulls solar thermal m (XS : R -> nat -> slab) (RS : R -> mat) (LS : R -> nat -> layer) (p : R) : Prop :=
  around p (fun s => layers_ok n m dulls solar thermal (XS s) /\ surface_ok n (weights (XS s)) (RS s) /\
                     forall k, (k <= m)%nat -> layer_of n solve eig (dulls k) solar thermal (XS s k) = Done (LS s k)).
(** Where the operators of a layer vary, the conditions of C46 *)
Definition smooth (n : nat) (dull dl : bool) (x : slab) : Prop :=
  dull = false -> dl = true -> omega x <> 0 /\
    simple_spectrum n (qx x) (qw x) (factor x 1 * omega x) (P_pp x) (P_mp x) /\ coupled n (qx x) (qw x) (factor x 1 * omega x) (P_pp x) (P_mp x).
(** The derivatives of the layers are those that the solver computes with the flags of the handle for derivative [j]. *)
Definition layers_vary n solve eig dulls solar thermal m d first o j (XS : R -> nat -> slab) (p : R) (dxs : nat -> slab) (old : nat -> layer) (ls_l : nat -> nat -> layer) : Prop :=
  let v := build_set d first o in
  forall k, (k <= m)%nat -> let dl := tr (v_layers v k j) in let db := tr (v_beam v k j) in let dt := tr (v_thermal v k j) in
    varies n dl (solar && db) (thermal && dt) (fun s => XS s k) p (dxs k) /\ smooth n (dulls k) dl (XS p k) /\
    layer_of_l n solve eig (dulls k) solar thermal dl db dt (tr (v_sources v k j)) (XS p k) (dxs k) (old k) = Done (ls_l k j).

Lemma layers_move : forall n solve eig dulls solar thermal m d first o j XS RS LS p dxs old ls_l,
  (0 < n)%nat -> solver n (solve n) -> solver (S n) (solve (S n)) -> (thermal = true -> solver (n + n) (solve (n + n)%nat)) -> eigensolver n eig -> normalised n eig ->
  l_layers d = S m -> l_solar d = solar -> l_thermal d = thermal -> (j < l_derivs d)%nat ->
  sound_near n solve eig dulls solar thermal m XS RS LS p -> layers_vary n solve eig dulls solar thermal m d first o j XS p dxs old ls_l ->
  forall i, (i <= m)%nat -> lderiv n (fun s => LS s i) p (flagged (tr (v_layers (build_set d first o) i j)) (tr (v_sources (build_set d first o) i j)) (ls_l i j)).
Proof.
  intros n solve eig dulls solar thermal m d first o j XS RS LS p dxs old ls_l Pos S1 S1' S2 ES EN E1 E2 E3 Hj So Va i Hi.
  destruct (Va i Hi) as (V & Sm' & Dn). rewrite <- unread_flags in Dn. pose proof (here _ _ So) as (Ok & _ & _). destruct (Ok i Hi) as ((Sc & LP & Du & Se & Sol & Th) & _).
  pose proof (handle_flags d first o i j ltac:(lia) Hj) as Fl. cbv zeta in Fl. rewrite E2, E3 in Fl.
  eapply (C46_layer_gradient n solve eig (dulls i) solar thermal _ _ _ _ (fun s => XS s i) p (dxs i) (old i)); try eassumption.
  - intros _. exact S1'.
  - intros q Hq. destruct Sc as (P & _). destruct (P q Hq). lra.
  - intros Dl Om. refine (conj _ (conj (Se Dl) (conj _ (conj _ Th)))).
    + refine (around_imp p _ _ _ So). intros s (Ok' & _). destruct (Ok' i Hi) as ((A & B & _) & _). split; assumption.
    + intros Q. exact (proj2 (Sm' Dl Q)).
    + intros Q. destruct (Sol Q) as (A & B & _). refine (conj A (conj B _)). refine (around_imp p _ _ _ So). intros s (Ok' & _). destruct (Ok' i Hi) as ((_ & _ & _ & _ & C & _) & _). exact (proj2 (proj2 (C Q))).
  - intros Dl Q. exact (proj1 (Sm' Dl Q)).
  - refine (around_imp p _ _ _ So). intros s (_ & _ & D). apply D, Hi.
Qed.
(** The gradient: the derivative arrays hold the derivatives of the light at the output levels, along every path of atmospheres whose variation the flags of
    the handle announce. *)
Theorem C47_gradient : forall n solve eig dulls solar thermal m d first o nu ul j XS RS T B LS p dxs old ls_l Rs_l t_l b_l x x_l work r,
  (0 < n)%nat -> solver n (solve n) -> solver (S n) (solve (S n)) -> (thermal = true -> solver (n + n) (solve (n + n)%nat)) -> eigensolver n eig -> normalised n eig ->
  l_layers d = S m -> l_solar d = solar -> l_thermal d = thermal -> solar = true \/ thermal = true ->
  (thermal = true -> forall k j, (k < S m)%nat -> (j < l_derivs d)%nat -> ~ emission d k j) -> ends_only (S m) nu ul -> (j < l_derivs d)%nat ->
  sound_near n solve eig dulls solar thermal m XS RS LS p -> layers_vary n solve eig dulls solar thermal m d first o j XS p dxs old ls_l ->
  mderiv n RS p (if tr (v_layers (build_set d first o) (S m) j) then Rs_l j else zmat) -> vderiv n T p (t_l j) -> vderiv n B p (b_l j) ->
  exists r', both_ways n (solve n) (S m) (l_derivs d) nu ul (LS p) ls_l (v_down (build_set d first o)) (Some (RS p, Rs_l)) (T p) (B p) t_l b_l x x_l work r = Ok r' /\
    forall Ip Im : R -> nat -> beam, around p (fun s => atmosphere n m solar thermal (XS s) (RS s) (T s) (B s) (Ip s) (Im s)) ->
    forall i q, (i < nu)%nat -> (q < n)%nat ->
      (ul i = 0%nat -> derivable_pt_lim (fun s => Ip s 0%nat q 0) p (I_p_l r' i j q) /\ derivable_pt_lim (fun s => Im s 0%nat q 0) p (I_m_l r' i j q)) /\
      (ul i = S m -> derivable_pt_lim (fun s => Ip s m q (ltau (XS s m))) p (I_p_l r' i j q) /\ derivable_pt_lim (fun s => Im s m q (ltau (XS s m))) p (I_m_l r' i j q)).
Proof.
  intros n solve eig dulls solar thermal m d first o nu ul j XS RS T B LS p dxs old ls_l Rs_l t_l b_l x x_l work r Pos S1 S1' S2 ES EN E1 E2 E3 Src Em En Hj So Va DR DT DB.
  pose proof (layers_move n solve eig dulls solar thermal m d first o j XS RS LS p dxs old ls_l Pos S1 S1' S2 ES EN E1 E2 E3 Hj So Va) as DL.
  pose proof (here _ _ So) as (Ok & Su & Dn).
  destruct (C47_adding_regular n solve eig dulls solar thermal m (XS p) (LS p) (RS p) (B p) Pos S1 S2 ES Ok Su Dn) as (R1 & R2 & _). rewrite <- E2, <- E3 in Src.
  destruct (C38_handle_both_ways n (solve n) d first o m nu ul (LS p) ls_l (RS p) Rs_l (T p) (B p) t_l b_l x x_l work r Pos S1 E1 Src R1) as (_ & H); [intros Q; apply Em; congruence|exact En|].
  destruct (H R2) as (r' & up0 & dm & um & Bw & _ & _ & D). clear H R1 R2. exists r'. split; [exact Bw|]. intros Ip Im At i q Hi Hq.
  destruct (D j LS (fun s => {| fR := RS s; fS := B s |}) T p Hj (fun _ => eq_refl) eq_refl eq_refl DL (conj DR DB) DT) as (U0 & Dm & Um & up0' & dm' & um' & _ & _ & _ & Ar & D1 & D2 & D3 & Sh).
  assert (around p (fun s => U0 s q = Ip s 0%nat q 0 /\ T s q = Im s 0%nat q 0 /\ Um s q = Ip s m q (ltau (XS s m)) /\ Dm s q = Im s m q (ltau (XS s m)))) as Eq.
  { refine (around_imp p _ _ _ (around_and p _ _ So (around_and p _ _ At Ar))). intros s ((Ok' & Su' & Dn') & A & F).
    destruct (st_field n solve eig Pos S1 ES solar thermal S2 m dulls (XS s) (LS s) Ok' Dn' _ _ _ _ _ _ F) as (Ip' & Im' & A' & E).
    pose proof (st_same n solve eig Pos S1 ES solar thermal S2 m dulls (XS s) (LS s) Ok' Dn' _ _ _ _ _ _ _ Su' A' A) as Sa. destruct (E q Hq) as (<- & <- & <- & <-).
    destruct (Ok' 0%nat (Nat.le_0_l m)) as ((_ & L0 & _) & _). destruct (Ok' m (le_n m)) as ((_ & Lm & _) & _).
    destruct (Sa 0%nat q 0 (Nat.le_0_l m) Hq ltac:(lra)) as (-> & ->). destruct (Sa m q (ltau (XS s m)) (le_n m) Hq ltac:(lra)) as (-> & ->). tauto. }
  destruct (Sh i Hi) as (Sh0 & ShN). split; intros U; [destruct (Sh0 U) as (-> & ->)|destruct (ShN U) as (-> & ->)]; split.
  - apply (eq_around (fun s => U0 s q)); [refine (around_imp p _ _ _ Eq); tauto|apply D1, Hq].
  - apply (eq_around (fun s => T s q)); [refine (around_imp p _ _ _ Eq); tauto|apply DT, Hq].
  - apply (eq_around (fun s => Um s q)); [refine (around_imp p _ _ _ Eq); tauto|apply D3, Hq].
  - apply (eq_around (fun s => Dm s q)); [refine (around_imp p _ _ _ Eq); tauto|apply D2, Hq].
Qed.

(** * Example: one direction, two layers lit by the sun, a surface that reflects a half; the thickness of the upper layer varies, and with it the beam that
    reaches the lower layer and the surface. *)
Definition lin_two : lin := {|
  l_layers := 2; l_derivs := 1; l_elem := 1; l_solar := true; l_thermal := false; l_reverse := false;
  l_ncoef := fun _ => 3%nat; l_kernels := nil;
  ltau_l := fun i _ => if Nat.eqb i 0 then d_one else d_zero; omega_l := fun _ _ => d_zero; coef_l := fun _ _ _ _ => d_zero; amp_l := fun _ _ => d_zero; par_l := fun _ _ _ => d_zero;
  levels_b_l := fun _ _ => d_zero; surface_b_l := fun _ => d_zero |}.
Definition slab_of (l b : R) : slab := {| qx := fun _ => 1; qw := fun _ => 1; zeroth := true; flux0 := 1; omega := 1/2; ltau := l; as_0 := 1; atran := exp (- 1 * l); btran := b;
  planck0 := 0; planck1 := 0; P_pp := fun _ _ => 1; P_mp := fun _ _ => 1; Q_mm := fun _ => 1; Q_pm := fun _ => 1 |}.
Definition slab_of_l (l a b : R) : slab := {| qx := zvec; qw := zvec; zeroth := true; flux0 := 0; omega := 0; ltau := l; as_0 := 0; atran := a; btran := b;
  planck0 := 0; planck1 := 0; P_pp := zmat; P_mp := zmat; Q_mm := zvec; Q_pm := zvec |}.
Definition sky (s : R) (k : nat) : slab := if Nat.eqb k 0 then slab_of (1 + s) 1 else slab_of 1 (exp (- 1 * (1 + s))).
Definition sky_l (k : nat) : slab := if Nat.eqb k 0 then slab_of_l 1 (- 1 * exp (- 1)) 0 else slab_of_l 0 0 (- 1 * exp (- 1)).
Definition ground : mat := fun _ _ => 1/2.
Lemma slab_inputs : forall l b, 0 <= l -> layer_inputs 1 false true false (slab_of l b).
Proof.
  intros l b H. destruct one_inputs as (Sc & _ & _ & Se & So & _). destruct (So eq_refl) as (S1 & S2 & _). refine (conj Sc (conj H (conj _ (conj Se (conj _ _))))); try discriminate.
  intros _. exact (conj S1 (conj S2 eq_refl)).
Qed.
Lemma ground_ok : forall xs, (forall i, 0 <= weights xs i) -> surface_ok 1 (weights xs) ground.
Proof. intros xs G v. unfold power, total, ground. cbn. pose proof (G 0%nat). nra. Qed.
Lemma slab_done : forall l b, layer_of 1 solves eig1 false true false (slab_of l b) = Done (eig_layer 1 solves eig1 true false (slab_of l b)).
Proof. intros. unfold layer_of. destruct (Req_EM_T (omega (slab_of l b)) 0) as [Z|_]; [cbn in Z; lra|reflexivity]. Qed.
Lemma sky_ok : forall s, - 1 <= s -> layers_ok 1 1 (fun _ => false) true false (sky s).
Proof.
  intros s Hs k Hk. assert (k = 0%nat \/ k = 1%nat) as [ -> | -> ] by lia; unfold sky; cbn [Nat.eqb]; refine (conj _ (conj eq_refl eq_refl)); apply slab_inputs; lra.
Qed.
Definition sky_layers (s : R) (k : nat) : layer := eig_layer 1 solves eig1 true false (sky s k).
Lemma sky_done : forall s k, layer_of 1 solves eig1 false true false (sky s k) = Done (sky_layers s k).
Proof. intros s k. unfold sky_layers, sky. destruct (Nat.eqb k 0); apply slab_done. Qed.
Lemma sky_sound : sound_near 1 solves eig1 (fun _ => false) true false 1 sky (fun _ => ground) sky_layers 0.
Proof.
  exists 1. split; [lra|]. intros s Hs. rewrite Rminus_0_r in Hs. apply Rabs_def2 in Hs. refine (conj (sky_ok s ltac:(lra)) (conj _ (fun k _ => sky_done s k))).
  apply ground_ok. intros i. unfold weights, sky. cbn. lra.
Qed.
Lemma beam_s : derivable_pt_lim (fun s => exp (- 1 * (1 + s))) 0 (- 1 * exp (- 1)).
Proof. eapply dl_eq; [apply dl_exp; apply dl_scal; apply plus_s|]. cbv beta. replace (exp (- 1 * (1 + 0))) with (exp (- 1)) by (f_equal; ring). ring. Qed.
Lemma sky_varies : forall old, exists ls_l, layers_vary 1 solves eig1 (fun _ => false) true false 1 lin_two true garbage_set 0 sky 0 sky_l old ls_l.
Proof.
  intros old. exists (fun k _ => let v := build_set lin_two true garbage_set in
    eig_layer_l 1 solves eig1 true false (tr (v_layers v k 0%nat)) (tr (v_beam v k 0%nat)) (tr (v_thermal v k 0%nat)) (tr (v_sources v k 0%nat)) (sky 0 k) (sky_l k) (old k)).
  cbv delta [layers_vary] beta. intros v k Hk dl db dt. refine (conj _ (conj _ _)).
  - assert (k = 0%nat \/ k = 1%nat) as [ -> | -> ] by lia; [change dl with true|change dl with false]; change db with true; cbn [andb]; unfold varies, sky, sky_l; cbn [Nat.eqb slab_of slab_of_l qx qw zeroth flux0 omega ltau as_0 atran btran planck0 planck1 P_pp P_mp Q_mm Q_pm].
    + refine (conj _ (conj (conj _ (conj _ (conj _ (conj _ (conj _ _))))) (conj (conj _ (conj _ _)) _))).
      * intros s. repeat split.
      * apply dl_const.
      * apply plus_s.
      * intros i j _ _. apply dl_const.
      * intros i j _ _. apply dl_const.
      * intros i _. apply dl_const.
      * intros i _. apply dl_const.
      * apply dl_const.
      * exact beam_s.
      * apply dl_const.
      * intros s. split; reflexivity.
    + refine (conj _ (conj _ (conj (conj _ (conj _ _)) _))); try apply dl_const; try (intros s; repeat split; fail). exact beam_s.
  - intros _ _. split; [unfold sky; destruct (Nat.eqb k 0); cbn; lra|apply simple_1].
  - unfold layer_of_l. assert (omega (sky 0 k) <> 0) as O by (unfold sky; destruct (Nat.eqb k 0); cbn; lra). destruct (Req_EM_T (omega (sky 0 k)) 0); [contradiction|reflexivity].
Qed.
Example C47_two : forall old Rs_l t_l b_l x x_l work r, t_l 0%nat = zvec -> b_l 0%nat = (fun _ => - 1 * exp (- 1)) ->
  exists ls_l r' Ip Im, layers_vary 1 solves eig1 (fun _ => false) true false 1 lin_two true garbage_set 0 sky 0 sky_l old ls_l /\
    both_ways 1 (solves 1) 2 1 2 (fun i => (2 * i)%nat) (sky_layers 0) ls_l (v_down (build_set lin_two true garbage_set)) (Some (ground, Rs_l)) zvec (fun _ => exp (- 1 * (1 + 0))) t_l b_l x x_l work r = Ok r' /\
    atmosphere 1 1 true false (sky 0) ground zvec (fun _ => exp (- 1 * (1 + 0))) Ip Im /\ I_p r' 0%nat 0%nat = Ip 0%nat 0%nat 0 /\ I_m r' 1%nat 0%nat = Im 1%nat 0%nat 1 /\
    forall JP JM : R -> nat -> beam, around 0 (fun s => atmosphere 1 1 true false (sky s) ground zvec (fun _ => exp (- 1 * (1 + s))) (JP s) (JM s)) ->
      derivable_pt_lim (fun s => JP s 0%nat 0%nat 0) 0 (I_p_l r' 0%nat 0%nat 0%nat) /\ derivable_pt_lim (fun s => JM s 1%nat 0%nat 1) 0 (I_m_l r' 1%nat 0%nat 0%nat).
Proof.
  intros old Rs_l t_l b_l x x_l work r Et Eb. destruct (sky_varies old) as (ls_l & Va). exists ls_l.
  assert (ends_only 2 2 (fun i => (2 * i)%nat)) as En. { split; [lia|]. right. split; [reflexivity|]. split; reflexivity. }
  assert (surface_ok 1 (weights (sky 0)) ground) as Gr by (apply ground_ok; intros i; unfold weights, sky; cbn; lra).
  destruct (C47_both_ways 1 solves eig1 (fun _ => false) true false 1 (sky 0) (sky_layers 0) ground zvec (fun _ => exp (- 1 * (1 + 0))) lin_two true garbage_set 2 (fun i => (2 * i)%nat) ls_l Rs_l t_l b_l x x_l work r
    ltac:(lia) solves_1 ltac:(discriminate) eig1_ok (sky_ok 0 ltac:(lra)) Gr (fun k _ => sky_done 0 k) eq_refl eq_refl eq_refl ltac:(tauto) ltac:(discriminate) En) as (r' & Ip & Im & Bw & At & Ho).
  destruct (C47_gradient 1 solves eig1 (fun _ => false) true false 1 lin_two true garbage_set 2 (fun i => (2 * i)%nat) 0 sky (fun _ => ground) (fun _ => zvec) (fun s _ => exp (- 1 * (1 + s))) sky_layers 0 sky_l old ls_l
    Rs_l t_l b_l x x_l work r ltac:(lia) solves_1 solves_2 ltac:(discriminate) eig1_ok eig1_normalised eq_refl eq_refl eq_refl ltac:(tauto) ltac:(discriminate) En ltac:(cbn; lia) sky_sound Va) as (r2 & Bw2 & Gd).
  - intros i j _ _. change (tr (v_layers (build_set lin_two true garbage_set) 2%nat 0%nat)) with false. apply dl_const.
  - intros i _. rewrite Et. apply dl_const.
  - intros i _. rewrite Eb. exact beam_s.
  - exists r', Ip, Im. change (l_derivs lin_two) with 1%nat in Bw, Bw2. rewrite Bw in Bw2. injection Bw2 as <-.
    refine (conj Va (conj Bw (conj At (conj _ (conj _ _))))).
    + apply (Ho 0%nat 0%nat); [lia|lia|reflexivity].
    + apply (Ho 1%nat 0%nat); [lia|lia|reflexivity].
    + intros JP JM A. specialize (Gd JP JM A). split; [apply (Gd 0%nat 0%nat); [lia|lia|reflexivity]|apply (Gd 1%nat 0%nat); [lia|lia|reflexivity]].
Qed.

Print Assumptions C47_adding_regular.
Print Assumptions C47_light_unique.
Print Assumptions C47_both_ways.
Print Assumptions C47_bottom_up.
Print Assumptions C47_top_down.
Print Assumptions C47_gradient.
