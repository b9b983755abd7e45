(** C38: the radiances computed from the operators of the layers. *)
From Coq Require Import Reals Bool Arith Lia Lra List ZArith.
From Verif Require Import Base Dbl DerivsModel DerivsSpec DerivsProofs DerivsProperties DeltaMSpec DeltaMProofs BeamProofs
  AddingModel AddingSpec AddingMat AddingJoin AddingDeriv AddingLin AddingCalls AddingProperties RadianceModel RadianceSpec RadianceProofs.
Import ListNotations.
Open Scope R_scope.

(** The output arrays *)
Lemma set1_same : forall A (f : nat -> A) i v, set1 f i v i = v.
Proof. intros. unfold set1. rewrite Nat.eqb_refl. reflexivity. Qed.
Lemma set1_other : forall A (f : nat -> A) i v k, k <> i -> set1 f i v k = f k.
Proof. intros A f i v k H. unfold set1. destruct (Nat.eqb_spec k i); [contradiction|reflexivity]. Qed.
Lemma derivs_of_in : forall nd o w j, (j < nd)%nat -> derivs_of nd o w j = w j.
Proof. intros nd o w j H. unfold derivs_of. destruct (Nat.ltb_spec j nd); [reflexivity|lia]. Qed.

(** What the arrays of one derivative show, when the levels of the arrays were set as follows *)
Definition filled (N nd nu : nat) (ul : nat -> nat) (r : rad) (p0 m0 pN mN : vec) (p0_l m0_l pN_l mN_l : nat -> vec) : Prop :=
  shows N nu ul (I_p r) (I_m r) p0 m0 pN mN /\
  forall j, (j < nd)%nat -> shows N nu ul (fun i => I_p_l r i j) (fun i => I_m_l r i j) (p0_l j) (m0_l j) (pN_l j) (mN_l j).
Lemma shows_ends : forall N nu ul p m p0 m0 pN mN, ends_only N nu ul ->
  (ul 0%nat = 0%nat -> p 0%nat = p0 /\ m 0%nat = m0) -> (ul 0%nat = N -> p 0%nat = pN /\ m 0%nat = mN) ->
  (nu = 2%nat -> p 1%nat = pN /\ m 1%nat = mN) -> shows N nu ul p m p0 m0 pN mN.
Proof.
  intros N nu ul p m p0 m0 pN mN (HN & [[-> _]|(-> & U0 & U1)]) A B C i Hi.
  - assert (i = 0%nat) as -> by lia. split; assumption.
  - destruct i as [|[|i]]; [split; assumption| |lia]. split; intros H; [lia|]. apply C. reflexivity.
Qed.
Lemma both_slab_fills : forall n N nd nu ul y y_l cs t b t_l b_l r, ends_only N nu ul ->
  filled N nd nu ul (both_slab n N nd nu ul y y_l cs t b t_l b_l r) (slab n (Rm y) (Tp y) (Sp y) t b) t b (slab n (Rp y) (Tm y) (Sm y) b t)
    (fun j => slab_l n (cs j) (Rm y) (Tp y) (Rm (y_l j)) (Tp (y_l j)) (Sp (y_l j)) t b (t_l j) (b_l j)) t_l b_l
    (fun j => slab_l n (cs j) (Rp y) (Tm y) (Rp (y_l j)) (Tm (y_l j)) (Sm (y_l j)) b t (b_l j) (t_l j)).
Proof.
  intros n N nd nu ul y y_l cs t b t_l b_l r En.
  destruct En as (HN & [(-> & [U0|U0])|(-> & U0 & U1)]); unfold both_slab; cbn [loop]; rewrite ?U0, ?U1; cbn [Nat.eqb].
  1: split; [|intros j Hj]; (apply shows_ends; [split; [exact HN|left; split; [reflexivity|left; exact U0]]| | |discriminate]); intros K;
    cbn [put_level I_p I_m I_p_l I_m_l]; try lia; rewrite ?set1_same, ?(derivs_of_in _ _ _ _ Hj); split; reflexivity.
  1: destruct (Nat.eqb_spec N 0) as [|_]; [lia|]; rewrite Nat.eqb_refl;
    split; [|intros j Hj]; (apply shows_ends; [split; [exact HN|left; split; [reflexivity|right; exact U0]]| | |discriminate]); intros K;
    cbn [put_level I_p I_m I_p_l I_m_l]; try lia; rewrite ?set1_same, ?(derivs_of_in _ _ _ _ Hj); split; reflexivity.
  destruct (Nat.eqb_spec N 0) as [|_]; [lia|]; rewrite Nat.eqb_refl.
  split; [|intros j Hj]; (apply shows_ends; [split; [exact HN|right; split; [reflexivity|split; [exact U0|exact U1]]]| | |]); intros K;
    cbn [put_level I_p I_m I_p_l I_m_l]; try lia; rewrite ?set1_same, ?(set1_other _ _ 1 _ 0) by lia; rewrite ?set1_same; rewrite ?(derivs_of_in _ _ _ _ Hj); split; reflexivity.
Qed.
Lemma both_surface_fills : forall n solve N nd nu ul y y_l cs f f_l t t_l work r, ends_only N nu ul -> exists old,
  let pm := boa_all n solve (Rp y) (Tm y) (fR f) (Sm y) (fS f) t in
  let pm_l j := boa_all_l n solve (cs j) (Rp y) (Tm y) (fR f) (Rp (y_l j)) (Tm (y_l j)) (fR (f_l j)) (Sm (y_l j)) (fS f) t (fS (f_l j)) (t_l j) (snd pm) (old j) in
  filled N nd nu ul (both_surface n solve N nd nu ul y y_l cs f f_l t t_l work r) (slab n (Rm y) (Tp y) (Sp y) t (fst pm)) t (fst pm) (snd pm)
    (fun j => slab_l n (cs j) (Rm y) (Tp y) (Rm (y_l j)) (Tp (y_l j)) (Sp (y_l j)) t (fst pm) (t_l j) (fst (pm_l j))) t_l
    (fun j => fst (pm_l j)) (fun j => snd (pm_l j)).
Proof.
  intros n solve N nd nu ul y y_l cs f f_l t t_l work r En.
  exists (fun j => match (if Nat.eqb (ul 0%nat) N then Some 0%nat else if Nat.ltb 1 nu && Nat.eqb (ul 1%nat) N then Some 1%nat else None) with
    Some i => (I_p_l r i j, I_m_l r i j) | None => work j end).
  cbv zeta. unfold both_surface. cbv zeta.
  destruct En as (HN & [(-> & [U0|U0])|(-> & U0 & U1)]); rewrite ?U0, ?U1.
  - destruct (Nat.eqb_spec 0 N) as [|_]; [lia|]. cbn [Nat.eqb Nat.ltb Nat.leb andb].
    split; [|intros j Hj]; (apply shows_ends; [split; [exact HN|left; split; [reflexivity|left; exact U0]]| | |discriminate]); intros K;
    cbn [put_level I_p I_m I_p_l I_m_l]; try lia; rewrite ?set1_same, ?(derivs_of_in _ _ _ _ Hj); split; reflexivity.
  - destruct (Nat.eqb_spec N 0) as [|_]; [lia|]. rewrite Nat.eqb_refl.
    split; [|intros j Hj]; (apply shows_ends; [split; [exact HN|left; split; [reflexivity|right; exact U0]]| | |discriminate]); intros K;
    cbn [put_level I_p I_m I_p_l I_m_l]; try lia; rewrite ?set1_same, ?(derivs_of_in _ _ _ _ Hj); split; reflexivity.
  - destruct (Nat.eqb_spec 0 N) as [|_]; [lia|]. rewrite (Nat.eqb_refl N). cbn [Nat.eqb Nat.ltb Nat.leb andb].
    split; [|intros j Hj]; (apply shows_ends; [split; [exact HN|right; split; [reflexivity|split; [exact U0|exact U1]]]| | |]); intros K;
    cbn [put_level I_p I_m I_p_l I_m_l]; try lia; rewrite ?set1_same, ?(set1_other _ _ 0 _ 1) by lia; rewrite ?set1_same; rewrite ?(derivs_of_in _ _ _ _ Hj); split; reflexivity.
Qed.

(* ------------------------------------------------------------------------- *)
(** * What is right *)
(** With a surface: the radiances returned at the top and at the bottom solve the equations of all layers and of the
    surface, and the derivatives returned are theirs.  [lv], [sv]: the operators and the sources of layer i vary, layer
    S m being the surface.  The derivatives of what the surface emits and of what falls on the top are always read. *)
Definition both_ways_right n solve m nd nu ul ls ls_l (cs : nat -> nat -> Z) (lv sv : nat -> nat -> bool) Rs Rs_l t b t_l b_l x x_l work r : Prop :=
  let f := {| fR := Rs; fS := b |} in
  exists r' up0 dm um, both_ways n solve (S m) nd nu ul ls ls_l cs (Some (Rs, Rs_l)) t b t_l b_l x x_l work r = Ok r' /\
    field n m ls f t up0 dm um /\ shows (S m) nu ul (I_p r') (I_m r') up0 t um dm /\
    forall j (F : R -> nat -> layer) (G : R -> face) (T : R -> vec) p, (j < nd)%nat -> (forall i, F p i = ls i) -> G p = f -> T p = t ->
      (forall i, (i <= m)%nat -> lderiv n (fun s => F s i) p (flagged (lv i j) (sv i j) (ls_l i j))) ->
      fderiv n G p {| fR := if lv (S m) j then Rs_l j else zmat; fS := b_l j |} -> vderiv n T p (t_l j) ->
      exists U0 D U up0' dm' um', U0 p = up0 /\ D p = dm /\ U p = um /\
        around p (fun s => field n m (F s) (G s) (T s) (U0 s) (D s) (U s)) /\
        vderiv n U0 p up0' /\ vderiv n D p dm' /\ vderiv n U p um' /\
        shows (S m) nu ul (fun i => I_p_l r' i j) (fun i => I_m_l r' i j) up0' (t_l j) um' dm'.
(** The same without a surface: [b] comes from below. *)
Definition both_ways_open_right n solve m nd nu ul ls ls_l (cs : nat -> nat -> Z) (lv sv : nat -> nat -> bool) t b t_l b_l x x_l work r : Prop :=
  exists r' up0 dm, both_ways n solve (S m) nd nu ul ls ls_l cs None t b t_l b_l x x_l work r = Ok r' /\
    through n m ls t b up0 dm /\ shows (S m) nu ul (I_p r') (I_m r') up0 t b dm /\
    forall j (F : R -> nat -> layer) (B T : R -> vec) p, (j < nd)%nat -> (forall i, F p i = ls i) -> B p = b -> T p = t ->
      (forall i, (i <= m)%nat -> lderiv n (fun s => F s i) p (flagged (lv i j) (sv i j) (ls_l i j))) ->
      vderiv n B p (b_l j) -> vderiv n T p (t_l j) ->
      exists U0 D up0' dm', U0 p = up0 /\ D p = dm /\
        around p (fun s => through n m (F s) (T s) (B s) (U0 s) (D s)) /\ vderiv n U0 p up0' /\ vderiv n D p dm' /\
        shows (S m) nu ul (fun i => I_p_l r' i j) (fun i => I_m_l r' i j) up0' (t_l j) (b_l j) dm'.
(** Downwards only: the radiances at the bottom, with nothing falling on the top, whatever [t] says *)
Definition top_down_right n solve m nd ls ls_l (cs : nat -> nat -> Z) (lv sv : nat -> nat -> bool) Rs Rs_l t b t_l b_l x x_l r : Prop :=
  let f := {| fR := Rs; fS := b |} in
  exists r' up0 dm um, top_down n solve (S m) nd ls ls_l lv sv cs (Some (Rs, Rs_l)) t b t_l b_l x x_l r = Ok r' /\
    field n m ls f zvec up0 dm um /\ I_p r' 0%nat = um /\ I_m r' 0%nat = dm /\
    forall j (F : R -> nat -> layer) (G : R -> face) p, (j < nd)%nat -> (forall i, F p i = ls i) -> G p = f ->
      (forall i, (i <= m)%nat -> lderiv n (fun s => F s i) p (flagged (lv i j) (sv i j) (ls_l i j))) ->
      fderiv n G p {| fR := if lv (S m) j then Rs_l j else zmat; fS := b_l j |} ->
      exists D U, D p = dm /\ U p = um /\ around p (fun s => exists u0, field n m (F s) (G s) zvec u0 (D s) (U s)) /\
        vderiv n D p (I_m_l r' 0%nat j) /\ vderiv n U p (I_p_l r' 0%nat j).
(** ... and nothing coming from below *)
Definition top_down_open_right n solve m nd ls ls_l (cs : nat -> nat -> Z) (lv sv : nat -> nat -> bool) t b t_l b_l x x_l r : Prop :=
  exists r' up0 dm, top_down n solve (S m) nd ls ls_l lv sv cs None t b t_l b_l x x_l r = Ok r' /\
    through n m ls zvec zvec up0 dm /\ I_p r' 0%nat = zvec /\ I_m r' 0%nat = dm /\
    forall j (F : R -> nat -> layer) p, (j < nd)%nat -> (forall i, F p i = ls i) ->
      (forall i, (i <= m)%nat -> lderiv n (fun s => F s i) p (flagged (lv i j) (sv i j) (ls_l i j))) ->
      exists D, D p = dm /\ around p (fun s => exists u0, through n m (F s) zvec zvec u0 (D s)) /\
        vderiv n D p (I_m_l r' 0%nat j) /\ I_p_l r' 0%nat j = zvec.
(** Upwards only: the radiances at the top; the derivative of what leaves the surface is read when its sources are
    said to vary. *)
Definition bottom_up_right n solve m nd ls ls_l (cs : nat -> nat -> Z) (lv sv : nat -> nat -> bool) Rs Rs_l t b t_l b_l x x_l r : Prop :=
  let f := {| fR := Rs; fS := b |} in
  exists r' up0, bottom_up n solve (S m) nd ls ls_l lv sv cs (Some (Rs, Rs_l)) t b t_l b_l x x_l r = Ok r' /\
    (exists dm um, field n m ls f t up0 dm um) /\ I_p r' 0%nat = up0 /\ I_m r' 0%nat = t /\
    forall j (F : R -> nat -> layer) (G : R -> face) (T : R -> vec) p, (j < nd)%nat -> (forall i, F p i = ls i) -> G p = f -> T p = t ->
      (forall i, (i < S m)%nat -> lderiv n (fun s => F s i) p (flagged (lv i j) (sv i j) (ls_l i j))) ->
      fderiv n G p (flagged_face (lv (S m) j) (sv (S m) j) {| fR := Rs_l j; fS := b_l j |}) -> vderiv n T p (t_l j) ->
      exists U, U p = up0 /\ around p (fun s => exists dm um, field n m (F s) (G s) (T s) (U s) dm um) /\
        vderiv n U p (I_p_l r' 0%nat j) /\ I_m_l r' 0%nat j = t_l j.
(** ... without a surface, with nothing coming from below, whatever [b] says *)
Definition bottom_up_open_right n solve m nd ls ls_l (cs : nat -> nat -> Z) (lv sv : nat -> nat -> bool) t b t_l b_l x x_l r : Prop :=
  exists r' up0, bottom_up n solve (S m) nd ls ls_l lv sv cs None t b t_l b_l x x_l r = Ok r' /\
    (exists dm, through n m ls t zvec up0 dm) /\ I_p r' 0%nat = up0 /\ I_m r' 0%nat = t /\
    forall j (F : R -> nat -> layer) (T : R -> vec) p, (j < nd)%nat -> (forall i, F p i = ls i) -> T p = t ->
      (forall i, (i <= m)%nat -> lderiv n (fun s => F s i) p (flagged (lv i j) (sv i j) (ls_l i j))) -> vderiv n T p (t_l j) ->
      exists U, U p = up0 /\ around p (fun s => exists dm, through n m (F s) (T s) zvec (U s) dm) /\
        vderiv n U p (I_p_l r' 0%nat j) /\ I_m_l r' 0%nat j = t_l j.

(* ------------------------------------------------------------------------- *)
(** * Both ways *)

(** The exceptions besides those of adding: if the sources of the layers vary, some of their operators must vary. *)
Theorem C38_both_ways_exact : forall n solve m nd nu ul ls ls_l cs lv sv Rs Rs_l t b t_l b_l x x_l work r, (0 < n)%nat -> solver n solve ->
  let f := {| fR := Rs; fS := b |} in
  (forall k c, (k < m)%nat -> stands_for n k ls c -> regular n (Rm (ls (S k))) (Rp c)) ->
  (forall c, stands_for n m ls c -> regular n (Rp c) Rs) ->
  (forall i j, (i <= m)%nat -> (j < nd)%nat -> lv i j = true -> sv i j = true) ->
  (forall i j, (i <= S m)%nat -> (j < nd)%nat -> codes (cs i j) (exists k, (k < i)%nat /\ lv k j = true) (exists k, (k < i)%nat /\ sv k j = true)
     (lv i j = true) (sv i j = true)) ->
  (forall i j, (0 < i <= m)%nat -> (j < nd)%nat -> (exists k, (k < i)%nat /\ sv k j = true) -> sv i j = false ->
     exists k, (k <= i)%nat /\ lv k j = true) ->
  (forall j, (j < nd)%nat -> (exists k, (k < S m)%nat /\ sv k j = true) -> exists k, (k < S m)%nat /\ lv k j = true) ->
  ends_only (S m) nu ul ->
  both_ways_right n solve m nd nu ul ls ls_l cs lv sv Rs Rs_l t b t_l b_l x x_l work r.
Proof.
  intros n solve m nd nu ul ls ls_l cs lv sv Rs Rs_l t b t_l b_l x x_l work r Hn Sv f Rg Rs' Ca Co Se Su En. unfold both_ways_right.
  destruct (C31_all_layers_exact n solve m nd ls ls_l cs lv sv x x_l Sv Rg Ca) as (y & y_l & E & St & _ & D);
    [intros i j Hi; apply Co; lia|exact Se|].
  destruct (both_surface_fills n solve (S m) nd nu ul y y_l (cs (S m)) f (fun j => {| fR := Rs_l j; fS := b_l j |}) t t_l work r En) as [old Fi].
  cbv zeta in Fi. set (pm := boa_all n solve (Rp y) (Tm y) (fR f) (Sm y) (fS f) t) in *.
  unfold both_ways. rewrite E. eexists. exists (slab n (Rm y) (Tp y) (Sp y) t (fst pm)), (snd pm), (fst pm). split; [reflexivity|].
  split; [split; [apply St, boa_all_interacts; [exact Sv|exact Hn|apply Rs', St]|apply boa_all_reflects]|]. split; [exact (proj1 Fi)|].
  intros j F G T p Hj EF EG ET DF DG DT. destruct (D j F p Hj EF DF) as (C & Cp & Ar & DC).
  destruct Fi as [_ Fi]. specialize (Fi j Hj).
  pose proof (down_code_is (S m) _ _ _ _ _ (Co (S m) j ltac:(lia) Hj)) as Cd.
  assert (some (S m) (fun i => sv i j) = some (S m) (fun i => lv i j)) as Eq.
  { apply eq_true_iff_eq. rewrite !some_iff. split; [apply Su, Hj|]. intros (k & K & L). exists k. split; [exact K|apply Ca; [lia|exact Hj|exact L]]. }
  rewrite Eq in *. set (lf := some (S m) (fun i => lv i j)) in *. rewrite Cd in Fi.
  destruct (reg_inverse n y f (Rs' y St)) as (q & Q1 & Q2).
  destruct (boa_all_exact n solve Sv Hn (Rp y) (Tm y) (fR f) q (fS f) t Q1 Q2 (Rp (y_l j)) (Tm (y_l j)) (Rs_l j) (Sm (y_l j)) (b_l j) (t_l j) (old j) lf (lv (S m) j) (sv (S m) j) (snd pm))
    as [Em Ep]. cbn [fR fS] in Fi, Em, Ep.
  match type of Em with AddingSpec.meq _ (col (snd ?z)) _ => set (pl := z) in * end.
  destruct (boa_all_deriv n solve Sv Hn C G T p _ _ (t_l j) q y f t Cp EG ET Q1 Q2 DC DG DT (fst pl) (snd pl) Em Ep) as [Dd Du].
  set (qm s := boa_all n solve (Rp (C s)) (Tm (C s)) (fR (G s)) (Sm (C s)) (fS (G s)) (T s)) in *.
  assert (qm p = pm) as Eqp by (unfold qm, pm; rewrite Cp, EG, ET; reflexivity).
  exists (fun s => slab n (Rm (C s)) (Tp (C s)) (Sp (C s)) (T s) (fst (qm s))), (fun s => snd (qm s)), (fun s => fst (qm s)).
  eexists. exists (snd pl), (fst pl). cbv beta. rewrite Eqp, Cp, ET.
  refine (conj eq_refl (conj eq_refl (conj eq_refl (conj _ (conj _ (conj Dd (conj Du Fi))))))).
  - destruct DC as (D1 & D2 & D3 & D4 & D5 & D6). destruct DG as [DG1 DG2].
    eapply around_imp; [|apply around_and; [exact Ar|apply (regular_around n (fun s => Rp (C s)) (fun s => fR (G s)) p _ _ D4 DG1); rewrite Cp, EG; apply Rs', St]].
    intros s [As Rgs]. split; [apply As, boa_all_interacts; assumption|apply boa_all_reflects].
  - destruct DC as (D1 & D2 & D3 & D4 & D5 & D6). eapply vderiv_ext; [|apply slab_deriv; [exact D1|exact D5|exact D6|exact DT|exact Du]].
    cbn [flagged Rm Tp Sp]. rewrite Eqp, Cp, ET. apply veq_sym'. apply slab_exact.
Qed.
(** Without a surface: [b] comes from below. *)
Theorem C38_both_ways_open_exact : forall n solve m nd nu ul ls ls_l cs lv sv t b t_l b_l x x_l work r, solver n solve ->
  (forall k c, (k < m)%nat -> stands_for n k ls c -> regular n (Rm (ls (S k))) (Rp c)) ->
  (forall i j, (i <= m)%nat -> (j < nd)%nat -> lv i j = true -> sv i j = true) ->
  (forall i j, (i <= S m)%nat -> (j < nd)%nat -> codes (cs i j) (exists k, (k < i)%nat /\ lv k j = true) (exists k, (k < i)%nat /\ sv k j = true)
     (lv i j = true) (sv i j = true)) ->
  (forall i j, (0 < i <= m)%nat -> (j < nd)%nat -> (exists k, (k < i)%nat /\ sv k j = true) -> sv i j = false ->
     exists k, (k <= i)%nat /\ lv k j = true) ->
  ends_only (S m) nu ul ->
  both_ways_open_right n solve m nd nu ul ls ls_l cs lv sv t b t_l b_l x x_l work r.
Proof.
  intros n solve m nd nu ul ls ls_l cs lv sv t b t_l b_l x x_l work r Sv Rg Ca Co Se En. unfold both_ways_open_right.
  destruct (C31_all_layers_exact n solve m nd ls ls_l cs lv sv x x_l Sv Rg Ca) as (y & y_l & E & St & _ & D);
    [intros i j Hi; apply Co; lia|exact Se|].
  destruct (both_slab_fills n (S m) nd nu ul y y_l (cs (S m)) t b t_l b_l r En) as [F1 F2].
  unfold both_ways. rewrite E. eexists. exists (slab n (Rm y) (Tp y) (Sp y) t b), (slab n (Rp y) (Tm y) (Sm y) b t). split; [reflexivity|].
  split; [apply St, slab_interacts|]. split; [exact F1|].
  intros j F B T p Hj EF EB ET DF DB DT. destruct (D j F p Hj EF DF) as (C & Cp & Ar & DC). specialize (F2 j Hj).
  pose proof (down_code_is (S m) _ _ _ _ _ (Co (S m) j ltac:(lia) Hj)) as Cd. rewrite Cd in F2.
  exists (fun s => slab n (Rm (C s)) (Tp (C s)) (Sp (C s)) (T s) (B s)), (fun s => slab n (Rp (C s)) (Tm (C s)) (Sm (C s)) (B s) (T s)).
  eexists. eexists. cbv beta. rewrite Cp, ET, EB.
  destruct DC as (D1 & D2 & D3 & D4 & D5 & D6).
  refine (conj eq_refl (conj eq_refl (conj _ (conj _ (conj _ F2))))).
  - eapply around_imp; [|exact Ar]. intros s As. apply As, slab_interacts.
  - eapply vderiv_ext; [|apply slab_deriv; [exact D1|exact D5|exact D6|exact DT|exact DB]].
    cbn [flagged Rm Tp Sp]. rewrite Cp, ET, EB. apply veq_sym', slab_exact.
  - eapply vderiv_ext; [|apply slab_deriv; [exact D4|exact D2|exact D3|exact DB|exact DT]].
    cbn [flagged Rp Tm Sm]. rewrite Cp, ET, EB. apply veq_sym', slab_exact.
Qed.
(** The equations have one solution. *)
Theorem C38_field_unique : forall n m ls c f t u0 d u u0' d' u', stands_for n m ls c -> regular n (Rp c) (fR f) ->
  field n m ls f t u0 d u -> field n m ls f t u0' d' u' -> veq n u0 u0' /\ veq n d d' /\ veq n u u'.
Proof.
  intros n m ls c f t u0 d u u0' d' u' St Rg [A B] [A' B']. apply St in A, A'. exact (field_unique n c f t Rg _ _ _ _ _ _ A B A' B').
Qed.

(* ------------------------------------------------------------------------- *)
(** * Downwards only: the radiances at the bottom, with nothing falling on the top *)

(** Two exceptions besides those of adding: if the sources of the layers vary some operators must, and if only the
    emission of the surface varies nothing is computed. *)
Theorem C38_top_down_exact : forall n solve m nd ls ls_l cs lv sv Rs Rs_l t b t_l b_l x x_l r, (0 < n)%nat -> solver n solve ->
  let f := {| fR := Rs; fS := b |} in
  (forall k c, (k < m)%nat -> bottom_of n k ls c -> regular n (fR c) (Rm (ls (S k)))) ->
  (forall c, bottom_of n m ls c -> regular n (fR c) Rs) ->
  (forall i j, (i <= m)%nat -> (j < nd)%nat -> lv i j = true -> sv i j = true) ->
  (forall i j, (i <= S m)%nat -> (j < nd)%nat -> codes (cs i j) (exists k, (k < i)%nat /\ lv k j = true) (exists k, (k < i)%nat /\ sv k j = true)
     (lv i j = true) (sv i j = true)) ->
  (forall j, (j < nd)%nat -> (exists k, (k < S m)%nat /\ sv k j = true) -> exists k, (k < S m)%nat /\ lv k j = true) ->
  (forall j, (j < nd)%nat -> sv (S m) j = true -> exists k, (k <= S m)%nat /\ lv k j = true) ->
  top_down_right n solve m nd ls ls_l cs lv sv Rs Rs_l t b t_l b_l x x_l r.
Proof.
  intros n solve m nd ls ls_l cs lv sv Rs Rs_l t b t_l b_l x x_l r Hn Sv f Rg Rs' Ca Co Su Ss. unfold top_down_right.
  destruct (C31_from_below_exact n solve m nd ls ls_l cs lv sv x x_l Sv Rg Ca) as (y & y_l & E & St & _ & D);
    [intros i j Hi; apply Co; lia|].
  unfold top_down. rewrite E. set (pm := boa_ref n solve (fR y) (fS y) (fR f) (fS f)).
  change (boa_ref n solve (fR y) (fS y) Rs b) with pm. cbv zeta.
  assert (forall F C G, bottom_of n m F C -> regular n (fR C) (fR G) ->
    let q := boa_ref n solve (fR C) (fS C) (fR G) (fS G) in exists u0, field n m F G zvec u0 (snd q) (fst q)) as Fld.
  { intros F C G H R1 q. destruct (boa_ref_sound n solve Sv Hn C G R1) as [A B]. apply H in A as [u0 A]. exists u0. split; [exact A|exact B]. }
  destruct (Fld ls y f St (Rs' y St)) as [up0 H0].
  eexists. exists up0, (snd pm), (fst pm). split; [reflexivity|]. split; [exact H0|]. cbn [put_level I_p I_m I_p_l I_m_l].
  rewrite !set1_same. split; [reflexivity|]. split; [reflexivity|].
  intros j F G p Hj EF EG DF DG. destruct (D j F p Hj EF DF) as (C & Cp & Ar & DC). rewrite !derivs_of_in by exact Hj.
  pose proof (down_code_is (S m) _ _ _ _ _ (Co (S m) j ltac:(lia) Hj)) as Cd.
  assert (some (S m) (fun i => sv i j) = some (S m) (fun i => lv i j)) as Eq.
  { apply eq_true_iff_eq. rewrite !some_iff. split; [apply Su, Hj|]. intros (k & K & L). exists k. split; [exact K|apply Ca; [lia|exact Hj|exact L]]. }
  rewrite Eq in *.
  assert (some (S m) (fun i => lv i j) || lv (S m) j || negb (sv (S m) j) = true) as Hd.
  { pose proof (some_S (S m) (fun k => lv k j)) as E1. cbv beta in E1. rewrite <- E1. destruct (sv (S m) j) eqn:Es; [|rewrite orb_true_r; reflexivity]. rewrite orb_false_r. apply some_iff.
    destruct (Ss j Hj Es) as (k & K & L). exists k. split; [lia|exact L]. }
  set (lf := some (S m) (fun i => lv i j)) in *. rewrite Cd.
  assert (exists q, AddingSpec.meq n (mmul n (i_sub (mmul n (fR y) (fR f))) q) ident /\ AddingSpec.meq n (mmul n q (i_sub (mmul n (fR y) (fR f)))) ident) as (q & Q1 & Q2).
  { destruct (regular_inverse n _ _ (Rs' y St)) as (q & A & B). exists q. cbn [fR f]. split; intros i k Hi Hk; [rewrite <- (A i k Hi Hk)|rewrite <- (B i k Hi Hk)]; reflexivity. }
  pose proof (boa_ref_exact n solve Sv Hn (fR y) (fR f) q (fS f) Q1 Q2 (fR (y_l j)) (Rs_l j) (fS (y_l j)) (b_l j) (I_p_l r 0%nat j, I_m_l r 0%nat j) lf (lv (S m) j) (sv (S m) j) (snd pm) Hd) as Ex.
  cbv zeta in Ex. destruct Ex as [Em Ep]. cbn [fR fS f] in Em, Ep |- *.
  match type of Em with AddingSpec.meq _ (col (snd ?z)) _ => set (pl := z) in * end.
  destruct (boa_ref_deriv n solve Sv Hn C G p _ _ q y f Cp EG Q1 Q2 DC DG (fst pl) (snd pl) Em Ep) as [Dd Du].
  set (qm s := boa_ref n solve (fR (C s)) (fS (C s)) (fR (G s)) (fS (G s))) in *.
  assert (qm p = pm) as Eqp by (unfold qm, pm; rewrite Cp, EG; reflexivity).
  exists (fun s => snd (qm s)), (fun s => fst (qm s)). cbv beta. rewrite Eqp.
  refine (conj eq_refl (conj eq_refl (conj _ (conj Dd Du)))).
  destruct DC as [DC1 DC2]. destruct DG as [DG1 DG2].
  eapply around_imp; [|apply around_and; [exact Ar|apply (regular_around n (fun s => fR (C s)) (fun s => fR (G s)) p _ _ DC1 DG1); rewrite Cp, EG; apply Rs', St]].
  intros s [As Rgs]. apply Fld; assumption.
Qed.
(** Without a surface what comes from below is not read: it is taken to be nothing. *)
Theorem C38_top_down_open_exact : forall n solve m nd ls ls_l cs lv sv t b t_l b_l x x_l r, solver n solve ->
  (forall k c, (k < m)%nat -> bottom_of n k ls c -> regular n (fR c) (Rm (ls (S k)))) ->
  (forall i j, (i <= m)%nat -> (j < nd)%nat -> lv i j = true -> sv i j = true) ->
  (forall i j, (i <= S m)%nat -> (j < nd)%nat -> codes (cs i j) (exists k, (k < i)%nat /\ lv k j = true) (exists k, (k < i)%nat /\ sv k j = true)
     (lv i j = true) (sv i j = true)) ->
  top_down_open_right n solve m nd ls ls_l cs lv sv t b t_l b_l x x_l r.
Proof.
  intros n solve m nd ls ls_l cs lv sv t b t_l b_l x x_l r Sv Rg Ca Co. unfold top_down_open_right.
  destruct (C31_from_below_exact n solve m nd ls ls_l cs lv sv x x_l Sv Rg Ca) as (y & y_l & E & St & _ & D);
    [intros i j Hi; apply Co; lia|].
  unfold top_down. rewrite E.
  assert (forall F C, bottom_of n m F C -> exists u0, through n m F zvec zvec u0 (fS C)) as Fld.
  { intros F C H. apply H. intros i Hi. rewrite dot_zero. ring. }
  destruct (Fld ls y St) as [up0 H0].
  eexists. exists up0, (fS y). split; [reflexivity|]. split; [exact H0|]. cbn [put_level I_p I_m I_p_l I_m_l]. rewrite !set1_same.
  split; [reflexivity|]. split; [reflexivity|].
  intros j F p Hj EF DF. destruct (D j F p Hj EF DF) as (C & Cp & Ar & DC1 & DC2). rewrite !derivs_of_in by exact Hj.
  exists (fun s => fS (C s)). rewrite Cp. refine (conj eq_refl (conj _ (conj _ eq_refl))).
  - eapply around_imp; [|exact Ar]. intros s As. apply Fld, As.
  - rewrite (down_code_is (S m) _ _ _ _ _ (Co (S m) j ltac:(lia) Hj)). cbn [flagged_face fS] in DC2.
    set (a := some (S m) (fun k => lv k j)). destruct (some (S m) (fun i => sv i j));
      destruct a, (lv (S m) j), (sv (S m) j); exact DC2.
Qed.

(* ------------------------------------------------------------------------- *)
(** * Upwards only: the radiances at the top *)
Theorem C38_bottom_up_exact : forall n solve m nd ls ls_l cs lv sv Rs Rs_l t b t_l b_l x x_l r, solver n solve ->
  let f := {| fR := Rs; fS := b |} in
  (forall k c, (k < S m)%nat -> tops n (S m - S k) ls f (S k) c -> regular n (fR c) (Rp (ls k))) ->
  (forall i j, (i <= S m)%nat -> (j < nd)%nat -> lv i j = true -> sv i j = true) ->
  (forall i j, (i < S m)%nat -> (j < nd)%nat -> codes (cs i j) (lv i j = true) (sv i j = true)
     (exists k, (i < k <= S m)%nat /\ lv k j = true) (exists k, (i < k <= S m)%nat /\ sv k j = true)) ->
  bottom_up_right n solve m nd ls ls_l cs lv sv Rs Rs_l t b t_l b_l x x_l r.
Proof.
  intros n solve m nd ls ls_l cs lv sv Rs Rs_l t b t_l b_l x x_l r Sv f Rg Ca Co. unfold bottom_up_right.
  destruct (C31_above_surface_exact n solve (S m) nd ls ls_l cs lv sv f (fun j => {| fR := Rs_l j; fS := b_l j |}) Sv Rg Ca Co) as (y & y_l & E & St & _ & D).
  unfold bottom_up. fold f. rewrite E.
  assert (forall F G C T, tops n (S m) F G 0 C -> exists dm um, field n m F G T (toa_ref n (fR C) (fS C) T) dm um) as Fld.
  { intros F G C T H. apply above_field, H. intros i Hi. reflexivity. }
  eexists. exists (toa_ref n (fR y) (fS y) t). split; [reflexivity|]. split; [apply Fld, St|].
  cbn [put_level I_p I_m I_p_l I_m_l]. rewrite !set1_same. split; [reflexivity|]. split; [reflexivity|].
  intros j F G T p Hj EF EG ET DF DG DT. destruct (D j F G p Hj EF EG DF DG) as (C & Cp & Ar & DC1 & DC2). rewrite !derivs_of_in by exact Hj.
  exists (fun s => toa_ref n (fR (C s)) (fS (C s)) (T s)). rewrite Cp, ET. refine (conj eq_refl (conj _ (conj _ eq_refl))).
  - eapply around_imp; [|exact Ar]. intros s As. apply Fld, As.
  - assert (cs 0%nat j = down_code (lv 0%nat j) (sv 0%nat j) (DerivsProofs.above 0 (S m) (fun k => lv k j)) (DerivsProofs.above 0 (S m) (fun k => sv k j))) as Cd.
    { rewrite down_code_eq. apply codes_are. eapply codes_iff; [| | | |apply Co; [lia|exact Hj]]; try reflexivity; symmetry; apply above_iff. }
    eapply vderiv_ext; [|unfold toa_ref; apply vderiv_add; [apply vderiv_mv; [exact DC1|exact DT]|exact DC2]].
    rewrite Cd. apply veq_sym'. cbn [flagged_face fR fS]. rewrite Cp, ET. 
    assert (forall g : nat -> bool, some (S (S m)) g = g 0%nat || DerivsProofs.above 0 (S m) g) as Eo by reflexivity.
    rewrite !Eo. apply toa_ref_exact.
Qed.
(** Without a surface what comes from below is not read: it is taken to be nothing. *)
Theorem C38_bottom_up_open_exact : forall n solve m nd ls ls_l cs lv sv t b t_l b_l x x_l r, solver n solve ->
  (forall k c, (k < m)%nat -> tops n (m - S k) ls (top_face (ls m)) (S k) c -> regular n (fR c) (Rp (ls k))) ->
  (forall i j, (i <= m)%nat -> (j < nd)%nat -> lv i j = true -> sv i j = true) ->
  (forall i j, (i <= m)%nat -> (j < nd)%nat -> codes (cs i j) (lv i j = true) (sv i j = true)
     (exists k, (i < k <= m)%nat /\ lv k j = true) (exists k, (i < k <= m)%nat /\ sv k j = true)) ->
  bottom_up_open_right n solve m nd ls ls_l cs lv sv t b t_l b_l x x_l r.
Proof.
  intros n solve m nd ls ls_l cs lv sv t b t_l b_l x x_l r Sv Rg Ca Co. unfold bottom_up_open_right.
  destruct (C31_from_above_exact n solve m nd ls ls_l cs lv sv x x_l Sv Rg Ca) as (y & y_l & E & St & _ & D); [intros i j Hi; apply Co; lia|].
  unfold bottom_up. rewrite E.
  assert (forall F C T, top_of n m F C -> exists dm, through n m F T zvec (toa_ref n (fR C) (fS C) T) dm) as Fld.
  { intros F C T H. apply H. intros i Hi. reflexivity. }
  eexists. exists (toa_ref n (fR y) (fS y) t). split; [reflexivity|]. split; [apply Fld, St|].
  cbn [put_level I_p I_m I_p_l I_m_l]. rewrite !set1_same. split; [reflexivity|]. split; [reflexivity|].
  intros j F T p Hj EF ET DF DT. destruct (D j F p Hj EF DF) as (C & Cp & Ar & DC1 & DC2). rewrite !derivs_of_in by exact Hj.
  exists (fun s => toa_ref n (fR (C s)) (fS (C s)) (T s)). rewrite Cp, ET. refine (conj eq_refl (conj _ (conj _ eq_refl))).
  - eapply around_imp; [|exact Ar]. intros s As. apply Fld, As.
  - assert (cs 0%nat j = down_code (lv 0%nat j) (sv 0%nat j) (DerivsProofs.above 0 m (fun k => lv k j)) (DerivsProofs.above 0 m (fun k => sv k j))) as Cd.
    { rewrite down_code_eq. apply codes_are. eapply codes_iff; [| | | |apply Co; [lia|exact Hj]]; try reflexivity; symmetry; apply above_iff. }
    eapply vderiv_ext; [|unfold toa_ref; apply vderiv_add; [apply vderiv_mv; [exact DC1|exact DT]|exact DC2]].
    rewrite Cd. apply veq_sym'. cbn [flagged_face fR fS]. rewrite Cp, ET.
    assert (forall g : nat -> bool, some (S m) g = g 0%nat || DerivsProofs.above 0 m g) as Eo.
    { intros g. unfold some, DerivsProofs.above. rewrite Nat.sub_0_r. reflexivity. }
    rewrite !Eo. apply toa_ref_exact.
Qed.

(* ------------------------------------------------------------------------- *)
(** * With the flags of a handle *)
Section Handle.
Variables (d : lin) (first : bool) (o : derivs) (m : nat).
Let v := build_set d first o.
Let lv i j := tr (v_layers v i j).
Let sv i j := tr (v_sources v i j).
Hypothesis EN : l_layers d = S m.
Hypothesis So : l_solar d = true \/ l_thermal d = true.
Lemma carry_le : forall i j, (i <= S m)%nat -> (j < l_derivs d)%nat -> lv i j = true -> sv i j = true.
Proof. intros i j Hi Hj. apply carry_handle; [exact So|lia|exact Hj]. Qed.
Lemma down_le : forall i j, (i <= S m)%nat -> (j < l_derivs d)%nat ->
  codes (v_down v i j) (exists k, (k < i)%nat /\ lv k j = true) (exists k, (k < i)%nat /\ sv k j = true) (lv i j = true) (sv i j = true).
Proof. intros i j Hi Hj. apply down_handle; [lia|exact Hj]. Qed.
Lemma source_operator : forall k j, (k <= S m)%nat -> (j < l_derivs d)%nat -> (l_thermal d = true -> ~ emission d k j) ->
  sv k j = true -> exists q, (q <= k)%nat /\ lv q j = true.
Proof.
  intros k j Hk Hj Em H. apply sv_acts in H; [|lia|exact Hj]. destruct H as [(_ & q & Hq & A)|(T & [A|E])].
  - exists q. split; [exact Hq|]. apply lv_acts; [lia|exact Hj|exact A].
  - exists k. split; [lia|]. apply lv_acts; [lia|exact Hj|exact A].
  - destruct (Em T E).
Qed.
End Handle.

(** Whatever the arrays held before: both ways every derivative is right that does not change the thermal emission of a
    layer, with any surface or none. *)
Theorem C38_handle_both_ways : forall n solve d first o m nu ul ls ls_l Rs Rs_l t b t_l b_l x x_l work r,
  let v := build_set d first o in
  let lv i j := tr (v_layers v i j) in let sv i j := tr (v_sources v i j) in
  (0 < n)%nat -> solver n solve -> l_layers d = S m -> l_solar d = true \/ l_thermal d = true ->
  (forall k c, (k < m)%nat -> stands_for n k ls c -> regular n (Rm (ls (S k))) (Rp c)) ->
  (l_thermal d = true -> forall k j, (k < S m)%nat -> (j < l_derivs d)%nat -> ~ emission d k j) ->
  ends_only (S m) nu ul ->
  both_ways_open_right n solve m (l_derivs d) nu ul ls ls_l (v_down v) lv sv t b t_l b_l x x_l work r /\
  ((forall c, stands_for n m ls c -> regular n (Rp c) Rs) ->
   both_ways_right n solve m (l_derivs d) nu ul ls ls_l (v_down v) lv sv Rs Rs_l t b t_l b_l x x_l work r).
Proof.
  intros n solve d first o m nu ul ls ls_l Rs Rs_l t b t_l b_l x x_l work r v lv sv Hn Sv EN So Rg Em En.
  assert (forall i j, (0 < i <= m)%nat -> (j < l_derivs d)%nat -> (exists k, (k < i)%nat /\ sv k j = true) -> sv i j = false ->
     exists k, (k <= i)%nat /\ lv k j = true) as Se.
  { intros i j Hi Hj. apply seen_handle; [lia|exact Hj|]. intros T k Hk. rewrite EN in Hk. apply Em; assumption. }
  split.
  - apply C38_both_ways_open_exact; try assumption; [intros; apply (carry_le d first o m EN So); [lia|assumption..]|apply down_le; assumption].
  - intros Rs'. apply C38_both_ways_exact; try assumption; [intros; apply (carry_le d first o m EN So); [lia|assumption..]|apply down_le; assumption|].
    intros j Hj (k & Hk & H). destruct (source_operator d first o m EN k j ltac:(lia) Hj) as (q & Q & L); [intros T; apply Em; assumption|exact H|].
    exists q. split; [lia|exact L].
Qed.
(** Downwards only: without a surface every derivative is right; with one, those that do not change the thermal emission
    of a layer, nor that of the surface alone. *)
Theorem C38_handle_top_down : forall n solve d first o m ls ls_l Rs Rs_l t b t_l b_l x x_l r,
  let v := build_set d first o in
  let lv i j := tr (v_layers v i j) in let sv i j := tr (v_sources v i j) in
  (0 < n)%nat -> solver n solve -> l_layers d = S m -> l_solar d = true \/ l_thermal d = true ->
  (forall k c, (k < m)%nat -> bottom_of n k ls c -> regular n (fR c) (Rm (ls (S k)))) ->
  top_down_open_right n solve m (l_derivs d) ls ls_l (v_down v) lv sv t b t_l b_l x x_l r /\
  ((forall c, bottom_of n m ls c -> regular n (fR c) Rs) ->
   (l_thermal d = true -> forall k j, (k < S m)%nat -> (j < l_derivs d)%nat -> ~ emission d k j) ->
   (l_thermal d = true -> forall j, (j < l_derivs d)%nat -> DerivsSpec.moves (surface_b_l d j) -> exists k, (k <= S m)%nat /\ acts d first k j) ->
   top_down_right n solve m (l_derivs d) ls ls_l (v_down v) lv sv Rs Rs_l t b t_l b_l x x_l r).
Proof.
  intros n solve d first o m ls ls_l Rs Rs_l t b t_l b_l x x_l r v lv sv Hn Sv EN So Rg. split.
  - apply C38_top_down_open_exact; try assumption; [intros; apply (carry_le d first o m EN So); [lia|assumption..]|apply down_le; assumption].
  - intros Rs' Em Es. apply C38_top_down_exact; try assumption; [intros; apply (carry_le d first o m EN So); [lia|assumption..]|apply down_le; assumption| |].
    + intros j Hj (k & Hk & H). destruct (source_operator d first o m EN k j ltac:(lia) Hj) as (q & Q & L); [intros T; apply Em; assumption|exact H|].
      exists q. split; [lia|exact L].
    + intros j Hj H. apply sv_acts in H; [|lia|exact Hj]. destruct H as [(_ & q & Hq & A)|(T & [A|[[E _]|[_ E]]])].
      * exists q. split; [exact Hq|]. apply lv_acts; [lia|exact Hj|exact A].
      * exists (S m). split; [lia|]. apply lv_acts; [lia|exact Hj|exact A].
      * lia.
      * destruct (Es T j Hj E) as (k & K & A). exists k. split; [exact K|]. apply lv_acts; [lia|exact Hj|exact A].
Qed.
(** Upwards only, above a surface, every derivative is right. *)
Theorem C38_handle_bottom_up : forall n solve d first o m ls ls_l Rs Rs_l t b t_l b_l x x_l r,
  let v := build_set d first o in
  let lv i j := tr (v_layers v i j) in let sv i j := tr (v_sources v i j) in
  solver n solve -> l_layers d = S m -> l_solar d = true \/ l_thermal d = true ->
  (forall k c, (k < S m)%nat -> tops n (S m - S k) ls {| fR := Rs; fS := b |} (S k) c -> regular n (fR c) (Rp (ls k))) ->
  bottom_up_right n solve m (l_derivs d) ls ls_l (v_up v) lv sv Rs Rs_l t b t_l b_l x x_l r.
Proof.
  intros n solve d first o m ls ls_l Rs Rs_l t b t_l b_l x x_l r v lv sv Sv EN So Rg.
  apply C38_bottom_up_exact; try assumption; [apply (carry_le d first o m EN So)|].
  intros i j Hi Hj. pose proof (up_handle d first o i j ltac:(lia) Hj) as H. rewrite EN in H. exact H.
Qed.

(* ------------------------------------------------------------------------- *)
(** * Concrete cases: one stream *)

(** The two layers of C31 above a surface of albedo 1/4 *)
Example ex_both : (0 < 1)%nat /\ solver 1 solve1 /\
  (forall c, stands_for 1 1 (two (1/2)) c -> regular 1 (Rp c) (sc (1/4))) /\
  (forall c, bottom_of 1 1 (two (1/2)) c -> regular 1 (fR c) (sc (1/4))) /\
  ends_only 2 2 (fun i => (2 * i)%nat) /\
  fderiv 1 (fun s => {| fR := sc (1/4); fS := vc s |}) 1 {| fR := if two_v 2 0 then sc 0 else zmat; fS := vc 1 |} /\
  vderiv 1 (fun s => vc (s * s)) 1 (vc 2).
Proof.
  split; [lia|]. split; [exact solver1|].
  assert (stands_for 1 1 (two (1/2)) (chain 1 solve1 (two (1/2)) 1)) as St.
  { apply chain_stands; [exact solver1|]. intros k Hk. assert (k = 0%nat) as -> by lia. apply regular1. cbn. unfold sc. lra. }
  assert (Rp (chain 1 solve1 (two (1/2)) 1) 0%nat 0%nat = 13/24) as Rv.
  { cbn. unfold madd, mmul, solve1, i_sub, sc, total. cbn. unfold sc. field. }
  refine (conj _ (conj _ (conj _ (conj _ _)))).
  - intros c Hc. assert (leq 1 c (chain 1 solve1 (two (1/2)) 1)) as (_ & _ & _ & E & _).
    { apply C31_operators_determined. intros. rewrite (Hc _ _ _ _). symmetry. apply St. }
    apply regular1. rewrite (E 0%nat 0%nat) by lia. rewrite Rv. unfold sc. lra.
  - intros c Hc. apply regular1.
    destruct (determined_face 1 c (bottom_face (chain 1 solve1 (two (1/2)) 1))) as [E _].
    { intros dn up H. apply bottom_face_is. apply Hc in H as [u0 H]. exists u0. apply St, H. }
    rewrite (E 0%nat 0%nat) by lia. change (fR (bottom_face (chain 1 solve1 (two (1/2)) 1))) with (Rp (chain 1 solve1 (two (1/2)) 1)). rewrite Rv. unfold sc. lra.
  - split; [lia|]. right. split; [reflexivity|]. split; reflexivity.
  - split; cbn [fR fS two_v Nat.eqb]; intros i; intros; [exact (derivable_pt_lim_const _ _)|exact (derivable_pt_lim_id _)].
  - intros i _. unfold vc. eapply dl_eq; [apply (dl_mult (fun s => s) (fun s => s)); apply derivable_pt_lim_id|lra].
Qed.

(* ------------------------------------------------------------------------- *)
(** * Where it fails: one layer above a black surface, thermal emission *)
Definition nothing : rad := {| I_p := fun _ => zvec; I_m := fun _ => zvec; I_p_l := fun _ _ => zvec; I_m_l := fun _ _ => zvec |}.
Definition lin_one (layer_emission surface_emission : dbl) : lin := {|
  l_layers := 1; l_derivs := 1; l_elem := 1; l_solar := false; l_thermal := true; l_reverse := false;
  l_ncoef := fun _ => 3%nat; l_kernels := [0%Z];
  ltau_l := fun _ _ => d_zero; omega_l := fun _ _ => d_zero; coef_l := fun _ _ _ _ => d_zero; amp_l := fun _ _ => d_zero; par_l := fun _ _ _ => d_zero;
  levels_b_l := fun i _ => if Nat.eqb i 0 then layer_emission else d_zero; surface_b_l := fun _ => surface_emission |}.
Definition glow (s : R) (i : nat) : layer := plain 0 (1/2) s 0.
Definition glow_l (i j : nat) : layer := plain 0 0 1 0.
Lemma glow_deriv : forall p, lderiv 1 (fun s => glow s 0) p (flagged false true (glow_l 0 0)).
Proof.
  intros p. refine (conj _ (conj _ (conj _ (conj _ (conj _ _))))); intros i; intros; cbn; unfold sc, vc, zmat; first [exact (derivable_pt_lim_id _)|exact (derivable_pt_lim_const _ _)].
Qed.
Lemma face_deriv : forall p, fderiv 1 (fun s => {| fR := sc 0; fS := vc s |}) p {| fR := zmat; fS := vc 1 |}.
Proof. intros p. split; intros i; intros; cbn; unfold sc, vc, zmat; first [exact (derivable_pt_lim_id _)|exact (derivable_pt_lim_const _ _)]. Qed.
Lemma const_layer : forall l p, lderiv 1 (fun _ => l) p (flagged false false (glow_l 0 0)).
Proof. intros l p. refine (conj _ (conj _ (conj _ (conj _ (conj _ _))))); intros i; intros; exact (derivable_pt_lim_const _ _). Qed.
Lemma linear_deriv : forall a, derivable_pt_lim (fun s => a * s) 0 a.
Proof. intros a. eapply dl_eq; [apply (dl_mult (fun _ => a) (fun s => s)); [apply derivable_pt_lim_const|apply derivable_pt_lim_id]|ring]. Qed.
Lemma not_linear : forall (D : R -> vec) (P : R -> vec -> Prop) a w, (forall s x, P s x -> x 0%nat = a * s) -> around 0 (fun s => P s (D s)) ->
  vderiv 1 D 0 w -> w 0%nat = a.
Proof.
  intros D P a w H (e & He & A) Dv. specialize (Dv 0%nat ltac:(lia)).
  apply (uniqueness_limite (fun s => a * s) 0); [|apply linear_deriv].
  apply (derivable_pt_lim_locally_ext (fun s => D s 0%nat) _ 0 (- e) e); [lra| |exact Dv].
  intros z Hz. apply H, A. rewrite Rminus_0_r. apply Rabs_def1; lra.
Qed.

(** The emission of a layer and that of the surface vary: the code is S_S, for which radiance_boa_all has no branch; the
    derivative returned is what the arrays held before. *)
Theorem C38_layer_and_surface_emission_refuted :
  let v := build_set (lin_one half half) true garbage_set in
  let lv i j := tr (v_layers v i j) in let sv i j := tr (v_sources v i j) in
  ~ both_ways_right 1 solve1 0 1 1 (fun _ => 1%nat) (glow 0) glow_l (v_down v) lv sv (sc 0) (fun _ => sc 0) zvec (vc 0) (fun _ => zvec) (fun _ => vc 1)
      no_layer (fun _ => no_layer) (fun _ => (zvec, zvec)) nothing.
Proof.
  intros v lv sv.
  assert (lv 0%nat 0%nat = false) as L0 by reflexivity. assert (lv 1%nat 0%nat = false) as L1 by reflexivity.
  assert (sv 0%nat 0%nat = true) as S0 by reflexivity.
  assert (v_down v 0%nat 0%nat = 1%Z) as C0 by reflexivity. assert (v_down v 1%nat 0%nat = 5%Z) as C1 by reflexivity.
  clearbody lv sv. generalize dependent (v_down v). clear v. intros cs C0 C1 H.
  destruct H as (r' & up0 & dm & um & E & _ & _ & D).
  destruct (D 0%nat glow (fun s => {| fR := sc 0; fS := vc s |}) (fun _ => zvec) 0 ltac:(lia) (fun _ => eq_refl) eq_refl eq_refl) as
    (U0 & Dn & U & a & b & c & _ & _ & _ & Ar & _ & Dd & _ & Sh).
  - intros i Hi. assert (i = 0%nat) as -> by lia. rewrite L0, S0. apply glow_deriv.
  - rewrite L1. apply face_deriv.
  - intros i _. exact (derivable_pt_lim_const _ _).
  - destruct (Sh 0%nat ltac:(lia)) as [_ [_ Eb]]; [reflexivity|]. rewrite <- Eb in Dd.
    apply (not_linear Dn (fun s x => exists u0 u, field 1 0 (glow s) {| fR := sc 0; fS := vc s |} zvec u0 x u) 1) in Dd.
    + unfold both_ways, total_R_T_S in E. cbn [loop] in E. unfold total_step in E. cbn [Nat.eqb] in E. injection E as <-. cbn in Dd. rewrite C1 in Dd. cbn in Dd. unfold zvec in Dd. lra.
    + intros s y (u0 & u & X & Y). destruct (X 0%nat ltac:(lia)) as [_ X2]. rewrite X2. unfold dot, total, glow, plain, sc, vc, zvec. cbn. ring.
    + eapply around_imp; [|exact Ar]. intros s X. exists (U0 s), (U s). exact X.
Qed.
(** The emission of a layer varies, and so does the isotropic radiance falling on the top: the code is S_U, for which
    the latter is not read. *)
Theorem C38_emission_and_illumination_refuted :
  let v := build_set (lin_one half d_zero) true garbage_set in
  let lv i j := tr (v_layers v i j) in let sv i j := tr (v_sources v i j) in
  ~ both_ways_right 1 solve1 0 1 1 (fun _ => 1%nat) (glow 0) glow_l (v_down v) lv sv (sc 0) (fun _ => sc 0) (vc 0) (vc 0) (fun _ => vc 1) (fun _ => vc 0)
      no_layer (fun _ => no_layer) (fun _ => (zvec, zvec)) nothing.
Proof.
  intros v lv sv.
  assert (lv 0%nat 0%nat = false) as L0 by reflexivity. assert (lv 1%nat 0%nat = false) as L1 by reflexivity.
  assert (sv 0%nat 0%nat = true) as S0 by reflexivity.
  assert (v_down v 0%nat 0%nat = 1%Z) as C0 by reflexivity. assert (v_down v 1%nat 0%nat = 4%Z) as C1 by reflexivity.
  clearbody lv sv. generalize dependent (v_down v). clear v. intros cs C0 C1 H.
  destruct H as (r' & up0 & dm & um & E & _ & _ & D).
  destruct (D 0%nat glow (fun s => {| fR := sc 0; fS := vc 0 |}) (fun s => vc s) 0 ltac:(lia) (fun _ => eq_refl) eq_refl eq_refl) as
    (U0 & Dn & U & a & b & c & _ & _ & _ & Ar & _ & Dd & _ & Sh).
  - intros i Hi. assert (i = 0%nat) as -> by lia. rewrite L0, S0. apply glow_deriv.
  - rewrite L1. split; intros i; intros; exact (derivable_pt_lim_const _ _).
  - intros i _. exact (derivable_pt_lim_id _).
  - destruct (Sh 0%nat ltac:(lia)) as [_ [_ Eb]]; [reflexivity|]. rewrite <- Eb in Dd.
    apply (not_linear Dn (fun s x => exists u0 u, field 1 0 (glow s) {| fR := sc 0; fS := vc 0 |} (vc s) u0 x u) (3/2)) in Dd.
    + unfold both_ways, total_R_T_S in E. cbn [loop] in E. unfold total_step in E. cbn [Nat.eqb] in E. injection E as <-. cbn in Dd. rewrite C1 in Dd. cbn in Dd. rewrite C0 in Dd.
      unfold csolve, solve1, transp, i_sub, mmul, total, sc in Dd. cbn in Dd. unfold vc in Dd.
      match type of Dd with ?x = _ => assert (x = 1) as Q by field end. lra.
    + intros s y (u0 & u & X & Y). destruct (X 0%nat ltac:(lia)) as [_ X2]. rewrite X2. unfold dot, total, glow, plain, sc, vc. cbn. field.
    + eapply around_imp; [|exact Ar]. intros s X. exists (U0 s), (U s). exact X.
Qed.
(** Downwards only the emission of the surface alone varies: the code is U_S, for which radiance_boa_ref has no branch. *)
Theorem C38_surface_emission_downwards_refuted :
  let v := build_set (lin_one d_zero half) true garbage_set in
  let lv i j := tr (v_layers v i j) in let sv i j := tr (v_sources v i j) in
  ~ top_down_right 1 solve1 0 1 (glow 0) glow_l (v_down v) lv sv (sc 0) (fun _ => sc 0) zvec (vc 0) (fun _ => zvec) (fun _ => vc 1)
      no_face (fun _ => no_face) nothing.
Proof.
  intros v lv sv.
  assert (lv 0%nat 0%nat = false) as L0 by reflexivity. assert (lv 1%nat 0%nat = false) as L1 by reflexivity.
  assert (sv 0%nat 0%nat = false) as S0 by reflexivity.
  assert (v_down v 0%nat 0%nat = 0%Z) as C0 by reflexivity. assert (v_down v 1%nat 0%nat = 1%Z) as C1 by reflexivity.
  clearbody lv sv. generalize dependent (v_down v). clear v. intros cs C0 C1 H.
  destruct H as (r' & up0 & dm & um & E & _ & _ & _ & D).
  destruct (D 0%nat (fun _ => glow 0) (fun s => {| fR := sc 0; fS := vc s |}) 0 ltac:(lia) (fun _ => eq_refl) eq_refl) as
    (Dn & U & _ & _ & Ar & _ & Dd).
  - intros i Hi. assert (i = 0%nat) as -> by lia. rewrite L0, S0. apply const_layer.
  - rewrite L1. apply face_deriv.
  - apply (not_linear U (fun s x => exists u0 d, field 1 0 (glow 0) {| fR := sc 0; fS := vc s |} zvec u0 d x) 1) in Dd.
    + unfold top_down, boa in E. cbn [loop] in E. unfold boa_step in E. cbn [Nat.eqb] in E. injection E as <-. cbn in Dd. rewrite C1 in Dd. cbn in Dd. unfold zvec in Dd. lra.
    + intros s y (u0 & dn & X & Y). rewrite (Y 0%nat) by lia. unfold dot, total, sc, vc. cbn. ring.
    + eapply around_imp; [|exact Ar]. intros s (u0 & X). exists u0, (Dn s). exact X.
Qed.
(** Upwards only, the isotropic radiance from below varies and nothing else: its derivative is not read. *)
Theorem C38_illumination_from_below_refuted :
  let v := build_set (lin_one d_zero d_zero) true garbage_set in
  let lv i j := tr (v_layers v i j) in let sv i j := tr (v_sources v i j) in
  exists r', bottom_up 1 solve1 1 1 (glow 0) glow_l lv sv (v_up v) (Some (sc 0, fun _ => sc 0)) zvec (vc 0) (fun _ => zvec) (fun _ => vc 1)
      no_face (fun _ => no_face) nothing = Ok r' /\ I_p_l r' 0%nat 0%nat 0%nat = 0 /\
  forall U, around 0 (fun s => exists d u, field 1 0 (glow 0) {| fR := sc 0; fS := vc s |} zvec (U s) d u) -> ~ vderiv 1 U 0 (I_p_l r' 0%nat 0%nat).
Proof.
  intros v lv sv.
  assert (lv 0%nat 0%nat = false) as L0 by reflexivity. assert (sv 0%nat 0%nat = false) as S0 by reflexivity.
  assert (v_up v 0%nat 0%nat = 0%Z) as C0 by reflexivity.
  clearbody lv sv. generalize dependent (v_up v). clear v. intros cs C0.
  eexists. split; [|split].
  - unfold bottom_up, toa_surface. rewrite loop_down_S. unfold loop_down. cbn [loop]. unfold add_face, layer_add_ref, each. cbn [loop]. rewrite C0. cbv zeta. unfold ref_deriv, is. cbn [Z.eqb]. cbn. reflexivity.
  - cbn. rewrite C0. cbn. unfold mv, total, zvec. cbn. ring.
  - intros U Ar Dv. apply (not_linear U (fun s x => exists d u, field 1 0 (glow 0) {| fR := sc 0; fS := vc s |} zvec x d u) (1/2)) in Dv; [| |exact Ar].
    + cbn in Dv. rewrite C0 in Dv. cbn in Dv. unfold mv, total, zvec in Dv. cbn in Dv. lra.
    + intros s y (dn & u & X & Y). destruct (X 0%nat ltac:(lia)) as [X1 _]. rewrite X1. pose proof (Y 0%nat ltac:(lia)) as Y0.
      unfold dot, total, glow, plain, sc, vc, zvec in *. cbn in *. rewrite Y0. field.
Qed.
(** The isotropic radiances at the boundaries are inputs like the others, but downwards only that at the top is not read,
    and without a surface, one way, neither is that at the bottom. *)
Theorem C38_boundary_radiances_refuted :
  let cs (_ _ : nat) := 0%Z in let fl (_ _ : nat) := false in let ls := glow 0 in
  (exists r', top_down 1 solve1 1 0 ls glow_l fl fl cs (Some (sc 0, fun _ => sc 0)) (vc 1) (vc 0) (fun _ => zvec) (fun _ => zvec) no_face (fun _ => no_face) nothing = Ok r' /\
     ~ exists up0, field 1 0 ls {| fR := sc 0; fS := vc 0 |} (vc 1) up0 (I_m r' 0%nat) (I_p r' 0%nat)) /\
  (exists r', top_down 1 solve1 1 0 ls glow_l fl fl cs None (vc 0) (vc 1) (fun _ => zvec) (fun _ => zvec) no_face (fun _ => no_face) nothing = Ok r' /\
     I_p r' 0%nat 0%nat = 0) /\
  (exists r', bottom_up 1 solve1 1 0 ls glow_l fl fl cs None (vc 0) (vc 1) (fun _ => zvec) (fun _ => zvec) no_face (fun _ => no_face) nothing = Ok r' /\
     ~ exists dm, through 1 0 ls (vc 0) (vc 1) (I_p r' 0%nat) dm).
Proof.
  intros cs fl ls. refine (conj _ (conj _ _)); eexists.
  - split; [unfold top_down, boa; cbn [loop]; unfold boa_step; cbn [Nat.eqb]; reflexivity|]. intros (u & X & _).
    destruct (X 0%nat ltac:(lia)) as [_ X2]. cbn in X2. unfold csolve, solve1, transp, i_sub, mmul, mv, vadd, dot, total, sc, vc in X2. cbn in X2. unfold sc, vc in X2.
    match type of X2 with ?a = ?b => assert (a = 0) as A by field; assert (b = 1/2) as B by field end. lra.
  - split; [unfold top_down, boa; cbn [loop]; unfold boa_step; cbn [Nat.eqb]; reflexivity|]. reflexivity.
  - split; [unfold bottom_up; rewrite toa_is; unfold toa_surface, loop_down; cbn [loop]; reflexivity|]. intros (dm & X).
    destruct (X 0%nat ltac:(lia)) as [X1 _]. cbn in X1. unfold toa_ref, mv, vadd, dot, total, sc, vc in X1. cbn in X1. unfold sc, vc in X1. lra.
Qed.

Print Assumptions C38_both_ways_exact.
Print Assumptions C38_both_ways_open_exact.
Print Assumptions C38_field_unique.
Print Assumptions C38_top_down_exact.
Print Assumptions C38_top_down_open_exact.
Print Assumptions C38_bottom_up_exact.
Print Assumptions C38_bottom_up_open_exact.
Print Assumptions C38_handle_both_ways.
Print Assumptions C38_handle_top_down.
Print Assumptions C38_handle_bottom_up.
Print Assumptions C38_layer_and_surface_emission_refuted.
Print Assumptions C38_emission_and_illumination_refuted.
Print Assumptions C38_surface_emission_downwards_refuted.
Print Assumptions C38_illumination_from_below_refuted.
Print Assumptions C38_boundary_radiances_refuted.
