(** C31: adding of layers and its linearisation. *)
From Coq Require Import Reals Bool Arith Lia Lra List ZArith.
From Verif Require Import Base Dbl DerivsModel DerivsSpec DerivsProofs DerivsProperties DeltaMSpec DeltaMProofs BeamProofs
  AddingModel AddingSpec AddingMat AddingJoin AddingDeriv AddingLin AddingCalls.
Import ListNotations.
Open Scope R_scope.

(** A layer with its sources multiplied by t *)
Definition dimmed (t : R) (l : layer) : layer :=
  {| Rm := Rm l; Tm := Tm l; Sm := fun i => t * Sm l i; Rp := Rp l; Tp := Tp l; Sp := fun i => t * Sp l i |}.

(** Whenever the routine returns, the operators it leaves describe the two layers together: the radiances they relate are
    those for which radiances at the interface exist that satisfy the equations of both layers.  The sources of the lower
    layer count with the factor atran.  So it is when the results replace the upper layer. *)
Theorem C31_pair_is_elimination : forall n solve a b nd t t_l cs d0 v d, solver n solve -> regular n (Rm b) (Rp a) ->
  layer_add_all n solve over_first nd t t_l cs true (place b U23 U32 (place a U12 U21 blank)) d0 = Ok (v, d) ->
  joins n a (dimmed t b) (pick U12 U21 v) /\ pick U23 U32 v = b.
Proof.
  intros n solve a b nd t t_l cs d0 v d Sv Rg H. unfold layer_add_all in H. cbv zeta in H.
  destruct (each nd _ d0) as [d1| |]; try discriminate H. cbn [andb side_eqb over_first] in H.
  destruct (each nd _ d1) as [d2| |]; try discriminate H. injection H as <- <-.
  split; [|destruct b; reflexivity]. exact (join_sound n solve Sv t a b Rg).
Qed.
(** With separate arrays for the results the inputs are kept and the results are the same. *)
Theorem C31_pair_apart : forall n solve a b nd t t_l cs d0 v d, solver n solve -> regular n (Rm b) (Rp a) ->
  layer_add_all n solve apart nd t t_l cs true (place b U23 U32 (place a U12 U21 blank)) d0 = Ok (v, d) ->
  joins n a (dimmed t b) (pick U13 U31 v) /\ pick U12 U21 v = a /\ pick U23 U32 v = b.
Proof.
  intros n solve a b nd t t_l cs d0 v d Sv Rg H. unfold layer_add_all in H. cbv zeta in H.
  destruct (each nd _ d0) as [d1| |]; try discriminate H. cbn [andb side_eqb apart] in H.
  destruct (each nd _ d1) as [d2| |]; try discriminate H. injection H as <- <-.
  split; [exact (join_sound n solve Sv t a b Rg)|]. split; [destruct a; reflexivity|destruct b; reflexivity].
Qed.
(** Operators are determined by the radiances they relate. *)
Theorem C31_operators_determined : forall n a b,
  (forall down1 up2 up1 down2, interacts n a down1 up2 up1 down2 <-> interacts n b down1 up2 up1 down2) -> leq n a b.
Proof. intros n a b H. apply determined. intros. apply H. assumption. Qed.
(** The grouping does not matter. *)
Theorem C31_any_grouping : forall n solve a b c nd t_l cs d1 d2 d3 d4 v1 v2 v3 v4 e1 e2 e3 e4, solver n solve ->
  let call x y := layer_add_all n solve over_first nd 1 t_l cs true (place y U23 U32 (place x U12 U21 blank)) in
  let res := pick U12 U21 in
  call a b d1 = Ok (v1, e1) -> call (res v1) c d2 = Ok (v2, e2) -> call b c d3 = Ok (v3, e3) -> call a (res v3) d4 = Ok (v4, e4) ->
  regular n (Rm b) (Rp a) -> regular n (Rm c) (Rp (res v1)) -> regular n (Rm c) (Rp b) -> regular n (Rm (res v3)) (Rp a) ->
  leq n (res v2) (res v4).
Proof.
  intros n solve a b c nd t_l cs d1 d2 d3 d4 v1 v2 v3 v4 e1 e2 e3 e4 Sv call res H1 H2 H3 H4 R1 R2 R3 R4.
  destruct (C31_pair_is_elimination _ _ _ _ _ _ _ _ _ _ _ Sv R1 H1) as [J1 _].
  destruct (C31_pair_is_elimination _ _ _ _ _ _ _ _ _ _ _ Sv R2 H2) as [J2 _].
  destruct (C31_pair_is_elimination _ _ _ _ _ _ _ _ _ _ _ Sv R3 H3) as [J3 _].
  destruct (C31_pair_is_elimination _ _ _ _ _ _ _ _ _ _ _ Sv R4 H4) as [J4 _].
  exact (joins_assoc n a b c _ _ _ _ (joins_one n _ _ _ J1) (joins_one n _ _ _ J2) (joins_one n _ _ _ J3) (joins_one n _ _ _ J4)).
Qed.

(** A stack of any number of layers: the operators describe the whole stack, and for every derivative, the derivatives
    returned are those of the operators of the stack along any family of layers with the given derivatives.
    [lv], [sv]: the operators, the sources of layer i vary.  The exceptions: the sources of a layer whose operators vary
    must be flagged, and when the sources above vary and those of the layer do not, some operators must vary. *)
Theorem C31_all_layers_exact : forall n solve m nd ls ls_l cs lv sv x x_l, solver n solve ->
  (forall k c, (k < m)%nat -> stands_for n k ls c -> regular n (Rm (ls (S k))) (Rp c)) ->
  (forall i j, (i <= m)%nat -> (j < nd)%nat -> lv i j = true -> sv i j = true) ->
  (forall i j, (i <= m)%nat -> (j < nd)%nat -> codes (cs i j) (exists k, (k < i)%nat /\ lv k j = true) (exists k, (k < i)%nat /\ sv k j = true)
     (lv i j = true) (sv i j = true)) ->
  (forall i j, (0 < i <= m)%nat -> (j < nd)%nat -> (exists k, (k < i)%nat /\ sv k j = true) -> sv i j = false ->
     exists k, (k <= i)%nat /\ lv k j = true) ->
  exists y y_l, total_R_T_S n solve (S m) nd ls ls_l cs x x_l = Ok (y, y_l) /\ stands_for n m ls y /\
    (forall j, (nd <= j)%nat -> y_l j = x_l j) /\
    forall j (F : R -> nat -> layer) p, (j < nd)%nat -> (forall i, F p i = ls i) ->
      (forall i, (i <= m)%nat -> lderiv n (fun t => F t i) p (flagged (lv i j) (sv i j) (ls_l i j))) ->
      exists C, C p = y /\ around p (fun t => stands_for n m (F t) (C t)) /\
        lderiv n C p (flagged (some (S m) (fun i => lv i j)) (some (S m) (fun i => sv i j)) (y_l j)).
Proof.
  intros n solve m nd ls ls_l cs lv sv x x_l Sv Rg Ca Co Se.
  pose proof (chain_regular n solve Sv ls m Rg) as Rc.
  destruct (total_ok n solve Sv nd ls ls_l cs lv sv m Rc Ca) with (x := x) (x_l := x_l) (k := m) as (y_l & E & L & D).
  - intros i j Hi Hj. apply down_code_is. apply Co; assumption.
  - intros i j Hi Hj H K. apply some_iff in H. destruct (Se i j Hi Hj H K) as (k & Hk & Lk). apply some_iff. exists k. split; [lia|exact Lk].
  - lia.
  - exists (chain n solve ls m), y_l. split; [exact E|]. split; [apply chain_stands; assumption|]. split; [exact L|].
    intros j F p Hj EF DF. destruct (D j F p Hj EF DF) as [A B]. exists (fun t => chain n solve (F t) m). split; [|split].
    + clear -EF. induction m as [|m IH]; cbn [chain]; rewrite EF; [|rewrite IH]; reflexivity.
    + eapply around_imp; [|exact A]. intros t T. apply chain_stands; assumption.
    + exact B.
Qed.

(** Layers above a reflecting and emitting surface, from the surface upwards; [N]: the surface. *)
Theorem C31_above_surface_exact : forall n solve N nd ls ls_l cs lv sv f f_l, solver n solve ->
  (forall k c, (k < N)%nat -> tops n (N - S k) ls f (S k) c -> regular n (fR c) (Rp (ls k))) ->
  (forall i j, (i <= N)%nat -> (j < nd)%nat -> lv i j = true -> sv i j = true) ->
  (forall i j, (i < N)%nat -> (j < nd)%nat -> codes (cs i j) (lv i j = true) (sv i j = true)
     (exists k, (i < k <= N)%nat /\ lv k j = true) (exists k, (i < k <= N)%nat /\ sv k j = true)) ->
  exists y y_l, toa_surface n solve N nd ls ls_l cs f f_l = Ok (y, y_l) /\ tops n N ls f 0 y /\
    (forall j, (nd <= j)%nat -> y_l j = f_l j) /\
    forall j (F : R -> nat -> layer) (G : R -> face) p, (j < nd)%nat -> (forall i, F p i = ls i) -> G p = f ->
      (forall i, (i < N)%nat -> lderiv n (fun t => F t i) p (flagged (lv i j) (sv i j) (ls_l i j))) ->
      fderiv n G p (flagged_face (lv N j) (sv N j) (f_l j)) ->
      exists C, C p = y /\ around p (fun t => tops n N (F t) (G t) 0 (C t)) /\
        fderiv n C p (flagged_face (some (S N) (fun i => lv i j)) (some (S N) (fun i => sv i j)) (y_l j)).
Proof.
  intros n solve N nd ls ls_l cs lv sv f f_l Sv Rg Ca Co.
  pose proof (stack_regular n solve Sv ls f N Rg) as Rc.
  destruct (up_ok n solve Sv nd N ls ls_l cs lv sv f f_l Rc Ca) with (m := N) as (y_l & E & L & D).
  - intros i j Hi Hj. rewrite down_code_eq. apply codes_are. eapply codes_iff; [| | | |apply Co; assumption]; try reflexivity; symmetry; apply above_iff.
  - lia.
  - rewrite Nat.sub_diag in E, D. exists (stack n solve ls f N 0), y_l. split; [exact E|]. split; [|split; [exact L|]].
    + apply stack_tops; [exact Sv|]. intros i Hi. apply Rc, Hi.
    + intros j F G p Hj EF EG DF DG. destruct (D j F G p Hj EF EG DF DG) as [A B]. exists (fun t => stack n solve (F t) (G t) N 0). split; [|split].
      * rewrite EG. apply stack_ext, EF.
      * eapply around_imp; [|exact A]. intros t T. apply stack_tops; [exact Sv|]. intros i Hi. apply T, Hi.
      * unfold lower in B. rewrite Nat.sub_diag in B. exact B.
Qed.

(** The stack seen from below, with nothing falling on the top *)
Theorem C31_from_below_exact : forall n solve m nd ls ls_l cs lv sv x x_l, solver n solve ->
  (forall k c, (k < m)%nat -> bottom_of n k ls c -> regular n (fR c) (Rm (ls (S k)))) ->
  (forall i j, (i <= m)%nat -> (j < nd)%nat -> lv i j = true -> sv i j = true) ->
  (forall i j, (i <= m)%nat -> (j < nd)%nat -> codes (cs i j) (exists k, (k < i)%nat /\ lv k j = true) (exists k, (k < i)%nat /\ sv k j = true)
     (lv i j = true) (sv i j = true)) ->
  exists y y_l, boa n solve (S m) nd ls ls_l lv sv cs x x_l = Ok (y, y_l) /\ bottom_of n m ls y /\
    (forall j, (nd <= j)%nat -> y_l j = x_l j) /\
    forall j (F : R -> nat -> layer) p, (j < nd)%nat -> (forall i, F p i = ls i) ->
      (forall i, (i <= m)%nat -> lderiv n (fun t => F t i) p (flagged (lv i j) (sv i j) (ls_l i j))) ->
      exists C, C p = y /\ around p (fun t => bottom_of n m (F t) (C t)) /\
        fderiv n C p (flagged_face (some (S m) (fun i => lv i j)) (some (S m) (fun i => sv i j)) (y_l j)).
Proof.
  intros n solve m nd ls ls_l cs lv sv x x_l Sv Rg Ca Co.
  pose proof (hung_regular n solve Sv ls m Rg) as Rc.
  destruct (boa_ok n solve Sv nd m ls ls_l cs lv sv Rc Ca) with (x := x) (x_l := x_l) (k := m) as (y_l & E & L & D).
  - intros i j Hi Hj. apply down_code_is. apply Co; assumption.
  - lia.
  - exists (hung n solve ls m), y_l. split; [exact E|]. split; [apply hung_bottom; assumption|]. split; [exact L|].
    intros j F p Hj EF DF. destruct (D j F p Hj EF DF) as [A B]. exists (fun t => hung n solve (F t) m). split; [|split].
    + clear -EF. induction m as [|m IH]; cbn [hung]; rewrite EF; [|rewrite IH]; reflexivity.
    + eapply around_imp; [|exact A]. intros t T. apply hung_bottom; assumption.
    + exact B.
Qed.

(** The stack seen from above, with nothing coming from below.  The codes must not count the missing surface. *)
Theorem C31_from_above_exact : forall n solve m nd ls ls_l cs lv sv x x_l, solver n solve ->
  (forall k c, (k < m)%nat -> tops n (m - S k) ls (top_face (ls m)) (S k) c -> regular n (fR c) (Rp (ls k))) ->
  (forall i j, (i <= m)%nat -> (j < nd)%nat -> lv i j = true -> sv i j = true) ->
  (forall i j, (i < m)%nat -> (j < nd)%nat -> codes (cs i j) (lv i j = true) (sv i j = true)
     (exists k, (i < k <= m)%nat /\ lv k j = true) (exists k, (i < k <= m)%nat /\ sv k j = true)) ->
  exists y y_l, toa n solve (S m) nd ls ls_l lv sv cs x x_l = Ok (y, y_l) /\ top_of n m ls y /\
    (forall j, (nd <= j)%nat -> y_l j = x_l j) /\
    forall j (F : R -> nat -> layer) p, (j < nd)%nat -> (forall i, F p i = ls i) ->
      (forall i, (i <= m)%nat -> lderiv n (fun t => F t i) p (flagged (lv i j) (sv i j) (ls_l i j))) ->
      exists C, C p = y /\ around p (fun t => top_of n m (F t) (C t)) /\
        fderiv n C p (flagged_face (some (S m) (fun i => lv i j)) (some (S m) (fun i => sv i j)) (y_l j)).
Proof.
  intros n solve m nd ls ls_l cs lv sv x x_l Sv Rg Ca Co. rewrite toa_is.
  set (f_l := fun j => if Nat.ltb j nd then copy_ref_l (lv m j) (sv m j) (x_l j) {| fR := Rm (ls_l m j); fS := Sp (ls_l m j) |} else x_l j).
  destruct (C31_above_surface_exact n solve m nd ls ls_l cs lv sv (top_face (ls m)) f_l Sv Rg Ca Co) as (y & y_l & E & T & L & D).
  assert (forall ls c, tops n m ls (top_face (ls m)) 0 c -> top_of n m ls c) as TT.
  { intros l c X d u. rewrite (X d u). apply above_through. }
  exists y, y_l. split; [exact E|]. split; [apply TT, T|]. split.
  - intros j Hj. rewrite (L j Hj). unfold f_l. destruct (Nat.ltb_spec j nd); [lia|reflexivity].
  - intros j F p Hj EF DF. destruct (D j F (fun t => top_face (F t m)) p Hj EF) as (C & Cp & A & B).
    + cbv beta. rewrite EF. reflexivity.
    + intros i Hi. apply DF. lia.
    + destruct (DF m ltac:(lia)) as (D1 & _ & _ & _ & _ & D6). split; cbn [top_face fR fS flagged_face] in *.
      * eapply mderiv_ext; [|exact D1]. unfold f_l. destruct (Nat.ltb_spec j nd); [|lia]. cbn [copy_ref_l fR flagged Rm]. destruct (lv m j); intros a b _ _; reflexivity.
      * eapply vderiv_ext; [|exact D6]. unfold f_l. destruct (Nat.ltb_spec j nd); [|lia]. cbn [copy_ref_l fS flagged Sp]. destruct (sv m j); intros a _; reflexivity.
    + exists C. split; [exact Cp|]. split; [|exact B]. eapply around_imp; [|exact A]. intros t X. apply TT, X.
Qed.

(* ------------------------------------------------------------------------- *)
(** * With the flags of a handle *)

Section Handle.
Variables (d : lin) (first : bool) (o : derivs).
Let v := build_set d first o.
Let lv i j := tr (v_layers v i j).
Let sv i j := tr (v_sources v i j).
Lemma flags_tr : forall z P, flags z P -> (tr z = true <-> P).
Proof. intros z P [[-> H]|[-> H]]; split; intros K; auto; try discriminate K; contradiction. Qed.
Lemma lv_acts : forall i j, (i <= l_layers d)%nat -> (j < l_derivs d)%nat -> (lv i j = true <-> acts d first i j).
Proof. intros. apply flags_tr, C20_layers_exact; assumption. Qed.
Lemma sv_acts : forall i j, (i <= l_layers d)%nat -> (j < l_derivs d)%nat -> (sv i j = true <-> acts_source d first i j).
Proof. intros. apply flags_tr, C20_sources_exact; assumption. Qed.
Lemma carry_handle : l_solar d = true \/ l_thermal d = true -> forall i j, (i <= l_layers d)%nat -> (j < l_derivs d)%nat -> lv i j = true -> sv i j = true.
Proof.
  intros So i j Hi Hj H. apply sv_acts; [assumption..|]. apply lv_acts in H; [|assumption..].
  destruct So as [So|So]; [left; split; [exact So|]; exists i; split; [lia|exact H]|right; split; [exact So|left; exact H]].
Qed.
Lemma some_le : forall i (j : nat) (b : nat -> nat -> bool) (P : nat -> Prop), (i <= S (l_layers d))%nat -> (forall k, (k < i)%nat -> (b k j = true <-> P k)) ->
  ((exists k, (k < i)%nat /\ P k) <-> exists k, (k < i)%nat /\ b k j = true).
Proof. intros i j b P Hi H. split; intros (k & K & L); exists k; (split; [exact K|]); apply (H k K); exact L. Qed.
Lemma down_handle : forall i j, (i <= l_layers d)%nat -> (j < l_derivs d)%nat ->
  codes (v_down v i j) (exists k, (k < i)%nat /\ lv k j = true) (exists k, (k < i)%nat /\ sv k j = true) (lv i j = true) (sv i j = true).
Proof.
  intros i j Hi Hj. destruct (C20_adding_codes_exact d first o i j Hi Hj) as [H _]. eapply codes_iff; [| | | |exact H].
  - apply (some_le i j lv (fun k => acts d first k j)); [lia|]. intros k Hk. apply lv_acts; [lia|exact Hj].
  - apply (some_le i j sv (fun k => acts_source d first k j)); [lia|]. intros k Hk. apply sv_acts; [lia|exact Hj].
  - symmetry. apply lv_acts; assumption.
  - symmetry. apply sv_acts; assumption.
Qed.
Lemma up_handle : forall i j, (i <= l_layers d)%nat -> (j < l_derivs d)%nat ->
  codes (v_up v i j) (lv i j = true) (sv i j = true) (exists k, (i < k <= l_layers d)%nat /\ lv k j = true) (exists k, (i < k <= l_layers d)%nat /\ sv k j = true).
Proof.
  intros i j Hi Hj. destruct (C20_adding_codes_exact d first o i j Hi Hj) as [_ H]. eapply codes_iff; [| | | |exact H].
  - symmetry. apply lv_acts; assumption.
  - symmetry. apply sv_acts; assumption.
  - split; intros (k & K & L); exists k; (split; [exact K|]); apply (lv_acts k j); try exact L; lia.
  - split; intros (k & K & L); exists k; (split; [exact K|]); apply (sv_acts k j); try exact L; lia.
Qed.
Lemma seen_handle : forall i j, (i < l_layers d)%nat -> (j < l_derivs d)%nat ->
  (l_thermal d = true -> forall k, (k < l_layers d)%nat -> ~ emission d k j) ->
  (exists k, (k < i)%nat /\ sv k j = true) -> sv i j = false -> exists k, (k <= i)%nat /\ lv k j = true.
Proof.
  intros i j Hi Hj Em (k & Hk & H) _. apply sv_acts in H; [|lia|exact Hj]. destruct H as [(_ & q & Hq & A)|(T & [A|E])].
  - exists q. split; [lia|]. apply lv_acts; [lia|exact Hj|exact A].
  - exists k. split; [lia|]. apply lv_acts; [lia|exact Hj|exact A].
  - exfalso. exact (Em T k ltac:(lia) E).
Qed.
End Handle.

(** With the flags the library builds from the inputs, whatever the arrays held before: every derivative is exact that
    does not change the thermal emission of a layer. *)
Theorem C31_handle_all_layers_exact : forall n solve d first o m ls ls_l x x_l,
  let v := build_set d first o in
  let lv i j := tr (v_layers v i j) in let sv i j := tr (v_sources v i j) in
  solver n solve -> l_layers d = S m -> l_solar d = true \/ l_thermal d = true ->
  (forall k c, (k < m)%nat -> stands_for n k ls c -> regular n (Rm (ls (S k))) (Rp c)) ->
  (l_thermal d = true -> forall k j, (k < S m)%nat -> (j < l_derivs d)%nat -> ~ emission d k j) ->
  exists y y_l, total_R_T_S n solve (S m) (l_derivs d) ls ls_l (v_down v) x x_l = Ok (y, y_l) /\ stands_for n m ls y /\
    forall j (F : R -> nat -> layer) p, (j < l_derivs d)%nat -> (forall i, F p i = ls i) ->
      (forall i, (i <= m)%nat -> lderiv n (fun t => F t i) p (flagged (lv i j) (sv i j) (ls_l i j))) ->
      exists C, C p = y /\ around p (fun t => stands_for n m (F t) (C t)) /\
        lderiv n C p (flagged (some (S m) (fun i => lv i j)) (some (S m) (fun i => sv i j)) (y_l j)).
Proof.
  intros n solve d first o m ls ls_l x x_l v lv sv Sv EN So Rg Em.
  destruct (C31_all_layers_exact n solve m (l_derivs d) ls ls_l (v_down v) lv sv x x_l Sv Rg) as (y & y_l & E & T & _ & D).
  - intros i j Hi Hj. apply carry_handle; [exact So|lia|exact Hj].
  - intros i j Hi Hj. apply down_handle; [lia|exact Hj].
  - intros i j Hi Hj. apply seen_handle; [lia|exact Hj|]. intros T k Hk. rewrite EN in Hk. apply Em; assumption.
  - exists y, y_l. split; [exact E|]. split; [exact T|exact D].
Qed.
(** From the surface upwards every derivative is exact, and so it is for the stack seen from below. *)
Theorem C31_handle_faces_exact : forall n solve d first o m ls ls_l f f_l x x_l,
  let v := build_set d first o in
  let lv i j := tr (v_layers v i j) in let sv i j := tr (v_sources v i j) in
  solver n solve -> l_layers d = S m -> l_solar d = true \/ l_thermal d = true ->
  ((forall k c, (k < S m)%nat -> tops n (S m - S k) ls f (S k) c -> regular n (fR c) (Rp (ls k))) ->
   exists y y_l, toa_surface n solve (S m) (l_derivs d) ls ls_l (v_up v) f f_l = Ok (y, y_l) /\ tops n (S m) ls f 0 y /\
    forall j (F : R -> nat -> layer) (G : R -> face) p, (j < l_derivs d)%nat -> (forall i, F p i = ls i) -> G p = f ->
      (forall i, (i < S m)%nat -> lderiv n (fun t => F t i) p (flagged (lv i j) (sv i j) (ls_l i j))) ->
      fderiv n G p (flagged_face (lv (S m) j) (sv (S m) j) (f_l j)) ->
      exists C, C p = y /\ around p (fun t => tops n (S m) (F t) (G t) 0 (C t)) /\
        fderiv n C p (flagged_face (some (S (S m)) (fun i => lv i j)) (some (S (S m)) (fun i => sv i j)) (y_l j))) /\
  ((forall k c, (k < m)%nat -> bottom_of n k ls c -> regular n (fR c) (Rm (ls (S k)))) ->
   exists y y_l, boa n solve (S m) (l_derivs d) ls ls_l lv sv (v_down v) x x_l = Ok (y, y_l) /\ bottom_of n m ls y /\
    forall j (F : R -> nat -> layer) p, (j < l_derivs d)%nat -> (forall i, F p i = ls i) ->
      (forall i, (i <= m)%nat -> lderiv n (fun t => F t i) p (flagged (lv i j) (sv i j) (ls_l i j))) ->
      exists C, C p = y /\ around p (fun t => bottom_of n m (F t) (C t)) /\
        fderiv n C p (flagged_face (some (S m) (fun i => lv i j)) (some (S m) (fun i => sv i j)) (y_l j))).
Proof.
  intros n solve d first o m ls ls_l f f_l x x_l v lv sv Sv EN So. split; intros Rg.
  - destruct (C31_above_surface_exact n solve (S m) (l_derivs d) ls ls_l (v_up v) lv sv f f_l Sv Rg) as (y & y_l & E & T & _ & D).
    + intros i j Hi Hj. apply carry_handle; [exact So|lia|exact Hj].
    + intros i j Hi Hj. pose proof (up_handle d first o i j ltac:(lia) Hj) as H. rewrite EN in H. exact H.
    + exists y, y_l. split; [exact E|]. split; [exact T|exact D].
  - destruct (C31_from_below_exact n solve m (l_derivs d) ls ls_l (v_down v) lv sv x x_l Sv Rg) as (y & y_l & E & T & _ & D).
    + intros i j Hi Hj. apply carry_handle; [exact So|lia|exact Hj].
    + intros i j Hi Hj. apply down_handle; [lia|exact Hj].
    + exists y, y_l. split; [exact E|]. split; [exact T|exact D].
Qed.
(** Without a surface the codes still count the row of the surface.  They are right when the library has no kernel and
    no derivative changes the emission of the surface. *)
Theorem C31_handle_from_above_exact : forall n solve d first o m ls ls_l x x_l,
  let v := build_set d first o in
  let lv i j := tr (v_layers v i j) in let sv i j := tr (v_sources v i j) in
  solver n solve -> l_layers d = S m -> l_solar d = true \/ l_thermal d = true ->
  (forall j, (j < l_derivs d)%nat -> ~ moves_surface d j) ->
  (l_thermal d = true -> forall j, (j < l_derivs d)%nat -> ~ DerivsSpec.moves (surface_b_l d j)) ->
  (forall k c, (k < m)%nat -> tops n (m - S k) ls (top_face (ls m)) (S k) c -> regular n (fR c) (Rp (ls k))) ->
  exists y y_l, toa n solve (S m) (l_derivs d) ls ls_l lv sv (v_up v) x x_l = Ok (y, y_l) /\ top_of n m ls y /\
    forall j (F : R -> nat -> layer) p, (j < l_derivs d)%nat -> (forall i, F p i = ls i) ->
      (forall i, (i <= m)%nat -> lderiv n (fun t => F t i) p (flagged (lv i j) (sv i j) (ls_l i j))) ->
      exists C, C p = y /\ around p (fun t => top_of n m (F t) (C t)) /\
        fderiv n C p (flagged_face (some (S m) (fun i => lv i j)) (some (S m) (fun i => sv i j)) (y_l j)).
Proof.
  intros n solve d first o m ls ls_l x x_l v lv sv Sv EN So Ns Ne Rg.
  assert (forall j, (j < l_derivs d)%nat -> ~ acts d first (S m) j) as Na.
  { intros j Hj [[H _]|(_ & _ & H)]; [lia|exact (Ns j Hj H)]. }
  destruct (C31_from_above_exact n solve m (l_derivs d) ls ls_l (v_up v) lv sv x x_l Sv Rg) as (y & y_l & E & T & _ & D).
  - intros i j Hi Hj. apply carry_handle; [exact So|lia|exact Hj].
  - intros i j Hi Hj. pose proof (up_handle d first o i j ltac:(lia) Hj) as H. rewrite EN in H.
    eapply codes_iff; [reflexivity|reflexivity| | |exact H].
    + split; intros (k & K & L); exists k; (split; [|exact L]); [|lia].
      destruct (Nat.eq_dec k (S m)) as [->|]; [|lia]. apply lv_acts in L; [|lia|exact Hj]. destruct (Na j Hj L).
    + split; intros (k & K & L); [|exists k; split; [lia|exact L]].
      destruct (Nat.eq_dec k (S m)) as [->|]; [|exists k; split; [lia|exact L]].
      apply sv_acts in L; [|lia|exact Hj]. destruct L as [(Sol & q & Hq & A)|(Th & [A|[[Em _]|[_ Em]]])].
      * exists m. split; [lia|]. apply sv_acts; [lia|exact Hj|]. left. split; [exact Sol|]. exists q. split; [|exact A].
        destruct (Nat.eq_dec q (S m)) as [->|]; [destruct (Na j Hj A)|lia].
      * destruct (Na j Hj A).
      * lia.
      * destruct (Ne Th j Hj Em).
  - exists y, y_l. split; [exact E|]. split; [exact T|exact D].
Qed.

(** The branches that end the program are never taken with these flags, whatever the layers hold. *)
Definition fatal (c : Z) : Prop := c = ADDING_L_B \/ c = ADDING_B_L.
Ltac branches H :=
  repeat match goal with
  | |- exists e, (if ?b then exits else _) = _ => let E := fresh in destruct b eqn:E; [exfalso; apply H; apply Z.eqb_eq in E; unfold fatal; tauto|]
  | |- exists e, (if ?b then Ok _ else _) = _ => destruct b; [eexists; reflexivity|]
  end; eexists; reflexivity.
Lemma up_returns : forall n solve at_ c m A B C D v t t_l d, ~ fatal c -> exists e, up_deriv n solve at_ c m A B C D v t t_l d = Ok e.
Proof.
  intros n solve at_ c m A B C D v t t_l d H. unfold up_deriv. cbv zeta. branches H.
Qed.
Lemma down_returns : forall n solve at_ c m A B C D v t t_l d, ~ fatal c -> exists e, down_deriv n solve at_ c m A B C D v t t_l d = Ok e.
Proof.
  intros n solve at_ c m A B C D v t t_l d H. unfold down_deriv. cbv zeta. branches H.
Qed.
Lemma ref_returns : forall n solve at_ flag c m A B C v t t_l d, ~ fatal c -> exists e, ref_deriv n solve at_ flag c m A B C v t t_l d = Ok e.
Proof.
  intros n solve at_ flag c m A B C v t t_l d H. unfold ref_deriv. cbv zeta. branches H.
Qed.
Lemma all_returns : forall n solve nd t t_l cs v d, (forall j, (j < nd)%nat -> ~ fatal (cs j)) ->
  exists r, layer_add_all n solve over_first nd t t_l cs true v d = Ok r.
Proof.
  intros n solve nd t t_l cs v d H. unfold layer_add_all. cbv zeta.
  match goal with |- context [each nd ?f d] => destruct (each_ok nd f d) as (d1 & -> & _) end; [intros; apply up_returns, H; assumption|].
  cbn [andb side_eqb over_first].
  match goal with |- context [each nd ?f d1] => destruct (each_ok nd f d1) as (d2 & -> & _) end; [intros; apply down_returns, H; assumption|].
  eexists. reflexivity.
Qed.
Lemma face_returns : forall n solve nd flag l l_l cs x x_l, (forall j, (j < nd)%nat -> ~ fatal (cs j)) ->
  exists r, add_face n solve nd flag l l_l cs x x_l = Ok r.
Proof.
  intros n solve nd flag l l_l cs x x_l H. unfold add_face, layer_add_ref. cbv zeta.
  match goal with |- context [each nd ?f ?d] => destruct (each_ok nd f d) as (d1 & -> & _) end; [intros; apply ref_returns, H; assumption|].
  eexists. reflexivity.
Qed.
Lemma not_fatal : forall c A B C D, codes c A B C D -> (A -> B) /\ (C -> D) \/ ~ B /\ ~ D -> ~ fatal c.
Proof.
  intros c A B C D (_ & H3 & H2 & H1 & H0) K F. destruct F as [->| ->].
  - change (Z.testbit ADDING_L_B 3) with true in H3. change (Z.testbit ADDING_L_B 2) with false in H2.
    change (Z.testbit ADDING_L_B 0) with true in H0. destruct K as [[K _]|[_ K]]; [|tauto].
    assert (false = true) as X by (apply H2, K, H3; reflexivity). discriminate X.
  - change (Z.testbit ADDING_B_L 2) with true in H2. change (Z.testbit ADDING_B_L 1) with true in H1. change (Z.testbit ADDING_B_L 0) with false in H0.
    destruct K as [[_ K]|[K _]]; [|tauto]. assert (false = true) as X by (apply H0, K, H1; reflexivity). discriminate X.
Qed.
Lemma handle_not_fatal : forall d first o i j, (i <= l_layers d)%nat -> (j < l_derivs d)%nat ->
  ~ fatal (v_down (build_set d first o) i j) /\ ~ fatal (v_up (build_set d first o) i j).
Proof.
  intros d first o i j Hi Hj. destruct (C20_adding_codes_exact d first o i j Hi Hj) as [H K].
  assert ((forall k, acts d first k j -> acts_source d first k j) \/ (forall k, ~ acts_source d first k j)) as S.
  { destruct (l_solar d) eqn:So; [left; intros k A; left; split; [exact So|]; exists k; split; [lia|exact A]|].
    destruct (l_thermal d) eqn:Th; [left; intros k A; right; split; [exact Th|left; exact A]|].
    right. intros k [[A _]|[A _]]; congruence. }
  split; [apply (not_fatal _ _ _ _ _ H)|apply (not_fatal _ _ _ _ _ K)]; destruct S as [S|S].
  - left. split; [intros (k & A & B); exists k; split; [exact A|apply S, B]|apply S].
  - right. split; [intros (k & A & B); exact (S k B)|apply S].
  - left. split; [apply S|intros (k & A & B); exists k; split; [exact A|apply S, B]].
  - right. split; [apply S|intros (k & A & B); exact (S k B)].
Qed.
Theorem C31_never_exits : forall n solve d first o ls ls_l lv sv x x_l f f_l,
  let v := build_set d first o in
  (exists r, total_R_T_S n solve (l_layers d) (l_derivs d) ls ls_l (v_down v) x x_l = Ok r) /\
  (exists r, toa_surface n solve (l_layers d) (l_derivs d) ls ls_l (v_up v) f f_l = Ok r) /\
  (exists r, toa n solve (l_layers d) (l_derivs d) ls ls_l lv sv (v_up v) f f_l = Ok r) /\
  (exists r, boa n solve (l_layers d) (l_derivs d) ls ls_l lv sv (v_down v) f f_l = Ok r).
Proof.
  intros n solve d first o ls ls_l lv sv x x_l f f_l v.
  assert (forall A N (g : nat -> outcome A -> outcome A) s, (N <= l_layers d)%nat -> (forall i a, (i < l_layers d)%nat -> exists r, g i (Ok a) = Ok r) ->
    exists r, loop N g (Ok s) = Ok r) as Lp.
  { intros A N g s HN H. induction N as [|N IH]; [eexists; reflexivity|]. destruct (IH ltac:(lia)) as [r E]. cbn [loop]. rewrite E. apply H. lia. }
  assert (forall A N (g : nat -> outcome A -> outcome A) s, (N <= l_layers d)%nat -> (forall i a, (i < l_layers d)%nat -> exists r, g i (Ok a) = Ok r) ->
    exists r, loop_down N g (Ok s) = Ok r) as Ld.
  { intros A N g s HN H. revert s. induction N as [|N IH]; intros s; [eexists; reflexivity|]. rewrite loop_down_S.
    destruct (H N s HN) as [r E]. rewrite E. apply IH. lia. }
  assert (forall i, (i < l_layers d)%nat -> forall j, (j < l_derivs d)%nat -> ~ fatal (v_down v i j) /\ ~ fatal (v_up v i j)) as Nf
    by (intros; apply handle_not_fatal; [lia|assumption]).
  refine (conj _ (conj _ (conj _ _))).
  - apply Lp; [lia|]. intros i [y y_l] Hi. unfold total_step. destruct (Nat.eqb i 0); [eexists; reflexivity|].
    match goal with |- context [layer_add_all ?a ?b ?c ?e ?g ?h ?k true ?p ?q] => destruct (all_returns a b e g h k p q) as [[r r_l] ->] end;
      [intros j Hj; apply Nf; assumption|eexists; reflexivity].
  - apply Ld; [lia|]. intros i [y y_l] Hi. apply face_returns. intros j Hj. apply Nf; assumption.
  - apply Ld; [lia|]. intros i [y y_l] Hi. unfold toa_step. destruct (Nat.eqb i _); [eexists; reflexivity|].
    apply face_returns. intros j Hj. apply Nf; assumption.
  - apply Lp; [lia|]. intros i [y y_l] Hi. unfold boa_step. destruct (Nat.eqb i 0); [eexists; reflexivity|].
    apply face_returns. intros j Hj. apply Nf; assumption.
Qed.

(* ------------------------------------------------------------------------- *)
(** * Concrete layers: one stream *)
Definition sc (x : R) : mat := fun _ _ => x.
Definition vc (x : R) : vec := fun _ => x.
Definition solve1 (m x : mat) : mat := fun i j => x i j / m 0%nat 0%nat.
Lemma solver1 : solver 1 solve1.
Proof.
  intros m x (q & Q1 & _) i j Hi Hj. specialize (Q1 0%nat 0%nat ltac:(lia) ltac:(lia)). cbn in Q1. unfold solve1, total. cbn.
  assert (i = 0%nat) as -> by lia. assert (j = 0%nat) as -> by lia. unfold ident in Q1. cbn in Q1.
  assert (m 0%nat 0%nat <> 0) by (intros E; rewrite E in Q1; lra). field. assumption.
Qed.
Lemma regular1 : forall a b : mat, a 0%nat 0%nat * b 0%nat 0%nat <> 1 -> regular 1 a b.
Proof.
  intros a b H. exists (sc (/ (1 - a 0%nat 0%nat * b 0%nat 0%nat))).
  split; intros i j Hi Hj; assert (i = 0%nat) as -> by lia; assert (j = 0%nat) as -> by lia; unfold sc, ident, total; cbn; field; lra.
Qed.
Definition plain (r t : R) (down up : R) : layer := {| Rm := sc r; Tm := sc t; Sm := vc down; Rp := sc r; Tp := sc t; Sp := vc up |}.
Lemma lderiv_plain : forall r t d u p r' t' d' u', derivable_pt_lim r p r' -> derivable_pt_lim t p t' -> derivable_pt_lim d p d' -> derivable_pt_lim u p u' ->
  lderiv 1 (fun s => plain (r s) (t s) (d s) (u s)) p (plain r' t' d' u').
Proof. intros. refine (conj _ (conj _ (conj _ (conj _ (conj _ _))))); intros i; intros; assumption. Qed.

(** Two layers; the operators and sources of the lower one vary. *)
Definition two (s : R) (i : nat) : layer := if Nat.eqb i 0 then plain (1/2) (1/4) 1 2 else plain s (1/4) s 1.
Definition two_l (i j : nat) : layer := plain 1 0 1 0.
Definition two_v (i j : nat) : bool := Nat.eqb i 1.
Example ex_two : let cs (i j : nat) := (if Nat.eqb i 0 then 0 else 3)%Z in
  (forall k c, (k < 1)%nat -> stands_for 1 k (two (1/2)) c -> regular 1 (Rm (two (1/2) (S k))) (Rp c)) /\
  (forall i j, (i <= 1)%nat -> (j < 1)%nat -> codes (cs i j) (exists k, (k < i)%nat /\ two_v k j = true) (exists k, (k < i)%nat /\ two_v k j = true)
     (two_v i j = true) (two_v i j = true)) /\
  (forall i, (i <= 1)%nat -> lderiv 1 (fun t => two t i) (1/2) (flagged (two_v i 0) (two_v i 0) (two_l i 0))).
Proof.
  cbv zeta. refine (conj _ (conj _ _)).
  - intros k c Hk Hc. assert (k = 0%nat) as -> by lia.
    assert (leq 1 c (two (1/2) 0%nat)) as (_ & _ & _ & E & _) by (apply C31_operators_determined; exact Hc).
    apply regular1. rewrite (E 0%nat 0%nat) by lia. cbn. unfold sc. lra.
  - assert (forall i j, (i <= 1)%nat -> ~ exists k, (k < i)%nat /\ two_v k j = true) as No.
    { intros i j Hi (k & K & L). unfold two_v in L. apply Nat.eqb_eq in L. lia. }
    intros i j Hi Hj. specialize (No i j Hi). unfold codes.
    destruct i as [|[|i]]; [| |lia]; (split; [cbn; lia|]); refine (conj _ (conj _ (conj _ _))); split; intros H;
      first [contradiction|discriminate H|reflexivity].
  - intros i Hi. destruct i as [|[|i]]; [| |lia]; cbn [two two_v two_l Nat.eqb flagged].
    + refine (conj _ (conj _ (conj _ (conj _ (conj _ _))))); intros i; intros; exact (derivable_pt_lim_const _ _).
    + exact (lderiv_plain (fun s => s) (fun _ => 1/4) (fun s => s) (fun _ => 1) (1/2) 1 0 1 0 (derivable_pt_lim_id _) (derivable_pt_lim_const _ _)
        (derivable_pt_lim_id _) (derivable_pt_lim_const _ _)).
Qed.
(** ... above a surface, and seen from below and from above *)
Example ex_faces :
  (forall k c, (k < 2)%nat -> tops 1 (2 - S k) (two (1/2)) {| fR := sc (1/4); fS := vc 1 |} (S k) c -> regular 1 (fR c) (Rp (two (1/2) k))) /\
  (forall k c, (k < 1)%nat -> bottom_of 1 k (two (1/2)) c -> regular 1 (fR c) (Rm (two (1/2) (S k)))) /\
  (forall k c, (k < 1)%nat -> tops 1 (1 - S k) (two (1/2)) (top_face (two (1/2) 1%nat)) (S k) c -> regular 1 (fR c) (Rp (two (1/2) k))).
Proof.
  set (g := {| fR := sc (1/4); fS := vc 1 |}).
  assert (forall c f, (forall d u, reflects 1 c d u <-> reflects 1 f d u) -> fR c 0%nat 0%nat = fR f 0%nat 0%nat) as U.
  { intros c f H. destruct (determined_face 1 c f) as [E _]; [intros; apply H; assumption|]. apply E; lia. }
  assert (tops 1 1 (two (1/2)) g 1 (join_face 1 solve1 (two (1/2) 1%nat) g)) as T1.
  { intros d u. cbn [AddingSpec.above]. apply join_face_sound; [exact solver1|]. apply regular1. cbn. unfold sc. lra. }
  refine (conj _ (conj _ _)).
  - intros k c Hk H. apply regular1. destruct k as [|[|k]]; [| |lia].
    + rewrite (U c (join_face 1 solve1 (two (1/2) 1%nat) g)); [|intros d u; rewrite (H d u); symmetry; apply (T1 d u)].
      cbn [join_face fR two Nat.eqb plain Rm Tp Rp Tm]. unfold madd, mmul, solve1, i_sub, sc, total. cbn. unfold sc. match goal with |- ?x <> _ => assert (x = 29/112) as -> by field end. lra.
    + rewrite (U c g H). cbn. unfold sc. lra.
  - intros k c Hk H. assert (k = 0%nat) as -> by lia. apply regular1.
    rewrite (U c (bottom_face (two (1/2) 0%nat))); [cbn; unfold sc; lra|]. intros d u. rewrite (H d u). symmetry. apply bottom_face_is.
  - intros k c Hk H. assert (k = 0%nat) as -> by lia. apply regular1. rewrite (U c (top_face (two (1/2) 1%nat)) H). cbn. unfold sc. lra.
Qed.

(** A solar handle of two layers where the optical thickness of the lower one varies *)
Definition lin_beam : lin := {|
  l_layers := 2; l_derivs := 1; l_elem := 1; l_solar := true; l_thermal := false; l_reverse := false;
  l_ncoef := fun _ => 3%nat; l_kernels := [];
  ltau_l := fun i _ => if Nat.eqb i 1 then half else d_zero; omega_l := fun _ _ => d_zero; coef_l := fun _ _ _ _ => d_zero; amp_l := fun _ _ => d_zero; par_l := fun _ _ _ => d_zero;
  levels_b_l := fun _ _ => d_zero; surface_b_l := fun _ => d_zero |}.
Example ex_handle : let v : derivs := build_set lin_beam true garbage_set in
  (l_layers lin_beam = 2%nat /\ (l_solar lin_beam = true \/ l_thermal lin_beam = true)) /\ (forall j, (j < l_derivs lin_beam)%nat -> ~ moves_surface lin_beam j) /\ (forall i, (i <= 1)%nat -> lderiv 1 (fun t => two t i) (1/2) (flagged (tr (v_layers v i 0%nat)) (tr (v_sources v i 0%nat)) (two_l i 0%nat))).
Proof.
  intros v. split; [split; [reflexivity|left; reflexivity]|]. split.
  - intros j _ (k & t & H & _). destruct k; discriminate H.
  - intros i Hi. destruct ex_two as (_ & _ & D). specialize (D i Hi).
    destruct i as [|[|i]]; [exact D|exact D|lia].
Qed.

(* ------------------------------------------------------------------------- *)
(** * Where it fails *)

(** Thermal emission of the top layer varies and the layer below does not: the code is S_U, no branch of layer_add_all
    applies, and the derivative of the sources stays that of the top layer alone. *)
Definition lin_emission : lin := {|
  l_layers := 2; l_derivs := 1; l_elem := 1; l_solar := false; l_thermal := true; l_reverse := false;
  l_ncoef := fun _ => 3%nat; l_kernels := [];
  ltau_l := fun _ _ => d_zero; omega_l := fun _ _ => d_zero; coef_l := fun _ _ _ _ => d_zero; amp_l := fun _ _ => d_zero; par_l := fun _ _ _ => d_zero;
  levels_b_l := fun i _ => if Nat.eqb i 0 then half else d_zero; surface_b_l := fun _ => d_zero |}.
Definition warm (s : R) (i : nat) : layer := if Nat.eqb i 0 then plain 0 (1/2) s 0 else plain 0 (1/2) 0 0.
Definition warm_l (i j : nat) : layer := plain 0 0 1 0.
Theorem C31_emission_above_refuted :
  let v := build_set lin_emission true garbage_set in
  let lv i j := tr (v_layers v i j) in let sv i j := tr (v_sources v i j) in
  (forall k c, (k < 1)%nat -> stands_for 1 k (warm 0) c -> regular 1 (Rm (warm 0 (S k))) (Rp c)) /\
  (forall i, (i <= 1)%nat -> lderiv 1 (fun t => warm t i) 0 (flagged (lv i 0%nat) (sv i 0%nat) (warm_l i 0%nat))) /\
  forall x_l, exists y y_l, total_R_T_S 1 solve1 2 1 (warm 0) warm_l (v_down v) no_layer x_l = Ok (y, y_l) /\
    ~ exists C, around 0 (fun t => stands_for 1 1 (warm t) (C t)) /\
        lderiv 1 C 0 (flagged (some 2 (fun i => lv i 0%nat)) (some 2 (fun i => sv i 0%nat)) (y_l 0%nat)).
Proof.
  intros v lv sv.
  assert (lv 0%nat 0%nat = false) as L0 by reflexivity. assert (lv 1%nat 0%nat = false) as L1 by reflexivity.
  assert (sv 0%nat 0%nat = true) as S0 by reflexivity. assert (sv 1%nat 0%nat = false) as S1 by reflexivity.
  assert (v_down v 0%nat 0%nat = 1%Z) as C0 by reflexivity. assert (v_down v 1%nat 0%nat = 4%Z) as C1 by reflexivity.
  clearbody lv sv. generalize dependent (v_down v). intros cs C0 C1.
  refine (conj _ (conj _ _)).
  - intros k c Hk Hc. assert (k = 0%nat) as -> by lia.
    assert (leq 1 c (warm 0 0%nat)) as (_ & _ & _ & E & _) by (apply C31_operators_determined; exact Hc).
    apply regular1. rewrite (E 0%nat 0%nat) by lia. cbn. unfold sc. lra.
  - intros i Hi. destruct i as [|[|i]]; [rewrite L0, S0|rewrite L1, S1|lia]; cbn [warm warm_l Nat.eqb flagged plain Rm Tm Sm Rp Tp Sp];
      refine (conj _ (conj _ (conj _ (conj _ (conj _ _))))); intros i; intros; try exact (derivable_pt_lim_const _ _).
    exact (derivable_pt_lim_id _).
  - intros x_l. eexists. eexists. split.
    { unfold total_R_T_S. cbn [loop]. unfold total_step at 2. cbn [Nat.eqb]. unfold total_step. cbn [Nat.eqb].
      unfold layer_add_all, each. cbn [loop]. rewrite !C1. cbv zeta. unfold up_deriv, down_deriv, is. cbn [Z.eqb].
      cbn. rewrite !C0. reflexivity. }
    intros (C & (e & He & A) & D). destruct D as (_ & _ & D & _). specialize (D 0%nat ltac:(lia)).
    cbn [some seq existsb] in D. rewrite S0 in D. cbn in D. unfold vc in D.
    assert (derivable_pt_lim (fun t => t / 2) 0 1) as K.
    { apply (derivable_pt_lim_locally_ext (fun t => Sm (C t) 0%nat) _ 0 (- e) e); [lra| |exact D].
      intros z Hz. pose proof (A z ltac:(rewrite Rminus_0_r; apply Rabs_def1; lra)) as St.
      pose proof (proj1 (St zvec zvec _ _) (interacts_out 1 (C z) zvec zvec)) as (d & u & X & Y).
      destruct (X 0%nat ltac:(lia)) as [_ X2]. destruct (Y 0%nat ltac:(lia)) as [Y1 Y2].
      unfold out_down, dot, total, warm, plain, zvec, sc, vc in *. cbn in *. lra. }
    assert (derivable_pt_lim (fun t => t / 2) 0 (1/2)) as K2.
    { eapply dl_eq; [apply (dl_mult (fun t => t) (fun _ => / 2)); [apply derivable_pt_lim_id|apply derivable_pt_lim_const]|lra]. }
    pose proof (uniqueness_limite _ _ _ _ K K2). lra.
Qed.

(** A derivative of the emission of the surface on a handle without kernels: nothing varies, but the derivative returned
    is made of what the result array held before. *)
Definition lin_no_surface : lin := {|
  l_layers := 2; l_derivs := 1; l_elem := 1; l_solar := false; l_thermal := true; l_reverse := false;
  l_ncoef := fun _ => 3%nat; l_kernels := [];
  ltau_l := fun _ _ => d_zero; omega_l := fun _ _ => d_zero; coef_l := fun _ _ _ _ => d_zero; amp_l := fun _ _ => d_zero; par_l := fun _ _ _ => d_zero;
  levels_b_l := fun _ _ => d_zero; surface_b_l := fun _ => half |}.
Theorem C31_emission_without_surface_refuted :
  let v := build_set lin_no_surface true garbage_set in
  let lv i j := tr (v_layers v i j) in let sv i j := tr (v_sources v i j) in
  (forall i, (i < 2)%nat -> lv i 0%nat = false /\ sv i 0%nat = false) /\
  forall g ls_l, exists y y_l, toa 1 solve1 2 1 (fun _ => plain 0 (1/2) 0 0) ls_l lv sv (v_up v) no_face (fun _ => {| fR := zmat; fS := vc g |}) = Ok (y, y_l) /\
    fS (y_l 0%nat) 0%nat = g / 2.
Proof.
  intros v lv sv.
  assert (lv 0%nat 0%nat = false) as L0 by reflexivity. assert (lv 1%nat 0%nat = false) as L1 by reflexivity.
  assert (sv 0%nat 0%nat = false) as S0 by reflexivity. assert (sv 1%nat 0%nat = false) as S1 by reflexivity.
  assert (v_up v 0%nat 0%nat = 1%Z) as C0 by reflexivity.
  clearbody lv sv. generalize dependent (v_up v). intros cs C0. split.
  - intros [|[|i]] Hi; [tauto|tauto|lia].
  - intros g ls_l. rewrite toa_is. unfold toa_surface. rewrite loop_down_S. eexists. eexists. split.
    + unfold loop_down. cbn [loop]. unfold add_face, layer_add_ref, each. cbn [loop]. rewrite C0. cbv zeta. unfold ref_deriv, is, sel. cbn [Z.eqb]. cbn. rewrite L1, S1. reflexivity.
    + cbn. unfold mv, total, solve1, vscale, i_sub, mmul, sc, vc. cbn. field.
Qed.

(** With a factor atran other than 1 (no caller passes one) the derivative of the downward sources ignores it. *)
Theorem C31_attenuated_sources_refuted :
  let call s := layer_add_all 1 solve1 apart 1 (1/2) (fun _ => 0) (fun _ => ADDING_U_S) true
    (place (plain 0 (1/2) s 0) U23 U32 (place (plain 0 (1/2) 0 0) U12 U21 blank)) (fun _ => place (plain 0 0 1 0) U23 U32 blank) in
  forall s, exists v d, call s = Ok (v, d) /\ vS v U13 0%nat = s / 2 /\ vS (d 0%nat) U13 0%nat = 1.
Proof.
  intros call s. eexists. eexists. split; [unfold call, layer_add_all, each; cbn; reflexivity|]. split; cbn.
  - unfold vadd, vscale, mv, total, solve1, sc, vc, i_sub, mmul. cbn. field.
  - unfold vadd, vscale, mv, total, solve1, sc, vc, i_sub, mmul. cbn. field.
Qed.

Print Assumptions C31_pair_is_elimination.
Print Assumptions C31_pair_apart.
Print Assumptions C31_operators_determined.
Print Assumptions C31_any_grouping.
Print Assumptions C31_all_layers_exact.
Print Assumptions C31_above_surface_exact.
Print Assumptions C31_from_below_exact.
Print Assumptions C31_from_above_exact.
Print Assumptions C31_handle_all_layers_exact.
Print Assumptions C31_handle_faces_exact.
Print Assumptions C31_handle_from_above_exact.
Print Assumptions C31_never_exits.
Print Assumptions C31_emission_above_refuted.
Print Assumptions C31_emission_without_surface_refuted.
Print Assumptions C31_attenuated_sources_refuted.
