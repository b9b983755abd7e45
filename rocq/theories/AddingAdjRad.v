(** Reverse mode from the radiances to the layers. *)
From Coq Require Import Reals Bool Arith Lia Lra Setoid Morphisms Ncring Ncring_tac ZArith List.
From Verif Require Import Base DerivsModel DerivsSpec DerivsProofs DeltaMSpec DeltaMProofs BeamProofs AddingModel AddingSpec AddingMat AddingJoin AddingDeriv
  AddingLin AddingCalls RadianceModel RadianceSpec RadianceProofs AddingAdjModel AddingAdjSpec AddingAdjMat AddingAdjPair AddingAdjLoops.
Open Scope R_scope.

Section Rad.
Variable n : nat.
Local Instance o : @Ring_ops mat zmat ident madd (mmul n) msub mneg (meq n) := mat_ops n.
Local Instance r : Ring (Ro := o) := mat_ring n.
Notation "a =~ b" := (meq n a b) (at level 70).
Notation "a ** b" := (mmul n a b) (at level 40, left associativity).
Notation "a +++ b" := (madd a b) (at level 50, left associativity).
Notation mw := (mweigh n).
Notation vw := (vweigh n).
Variable solve tsolve : mat -> mat -> mat.
Hypothesis Solve : solver n solve.
Hypothesis TSolve : tsolver n tsolve.
Notation chain := (chain n solve).
Notation stack := (stack n solve).
Notation dstack := (dstack n solve).
Notation dchain := (dchain n solve).

(* ------------------------------------------------------------------------- *)
(** * toa_a *)
Section Toa.
Variables (ls d : nat -> layer) (lv sv : nat -> bool) (cs : nat -> Z) (N : nat) (f g : face).
Hypothesis Reg : forall m, (m < N)%nat -> regular n (fR (stack ls f m (N - m))) (Rp (ls (N - S m)%nat)).
Hypothesis Carry : forall i, (i <= N)%nat -> carried (lv i) (sv i) = true.
Hypothesis Codes : forall i, (i < N)%nat -> cs i = down_code (lv i) (sv i) (DerivsProofs.above i N lv) (DerivsProofs.above i N sv).
Hypothesis Read : forall i, (i < N)%nat -> unread (sv i) (DerivsProofs.above i N lv) (DerivsProofs.above i N sv) = false.
Lemma toa_a_surface : forall w f_a, (forall i, (i < N)%nat -> within (lv i) (sv i) n (d i)) -> within_face (lv N) (sv N) n g ->
  let out := toa_a n solve tsolve N ls (Some f) cs w f_a in
  fweigh n w (dstack ls f d g N 0) = total N (fun i => lweigh n (fst out i) (d i)) + (fweigh n (snd out) g - fweigh n f_a g).
Proof.
  intros w f_a W Wg out.
  destruct (toa_a_run n solve tsolve Solve TSolve ls f N Reg lv sv cs d g Carry Codes Read W Wg N (Some f)) with (w := w) (i := N) as (_ & _ & E).
  - intros i Hi. unfold under. destruct (surface_is n solve Solve ls f N Reg (S i) (fun _ => no_face) ltac:(lia)) as (y_l & ->). reflexivity.
  - reflexivity.
  - lia.
  - rewrite Nat.sub_diag in E. cbn [AddingAdjLoops.dstack] in E. rewrite E. unfold out, toa_a. cbv zeta.
    set (s := loop N _ _). cbn [fst snd]. unfold fweigh. cbn [fR fS]. rewrite mw_add_l, vw_add_l. ring.
Qed.
End Toa.
Section Open.
Variables (ls d : nat -> layer) (lv sv : nat -> bool) (cs : nat -> Z) (m : nat).
Let f := top_face (ls m).
Hypothesis Reg : forall k, (k < m)%nat -> regular n (fR (stack ls f k (m - k))) (Rp (ls (m - S k)%nat)).
Hypothesis Carry : forall i, (i <= m)%nat -> carried (lv i) (sv i) = true.
Hypothesis Codes : forall i, (i < m)%nat -> cs i = down_code (lv i) (sv i) (DerivsProofs.above i m lv) (DerivsProofs.above i m sv).
Hypothesis Read : forall i, (i < m)%nat -> unread (sv i) (DerivsProofs.above i m lv) (DerivsProofs.above i m sv) = false.
Lemma open_is : forall i, (i <= m)%nat -> exists y_l,
  toa n solve (S m - i) 0 (fun k => ls (i + k)%nat) (fun _ _ => no_layer) (fun _ _ => false) (fun _ _ => false) (fun _ _ => 0%Z) no_face (fun _ => no_face) =
    Ok (stack ls f (m - i) i, y_l).
Proof.
  intros i Hi. replace (S m - i)%nat with (S (m - i)) by lia. rewrite toa_is. replace (i + (m - i))%nat with m by lia.
  apply (surface_is n solve Solve ls f m Reg i). exact Hi.
Qed.
Lemma toa_a_open : forall w f_a, (forall i, (i <= m)%nat -> within (lv i) (sv i) n (d i)) ->
  let out := toa_a n solve tsolve (S m) ls None cs w f_a in
  fweigh n w (dstack ls f d (top_face (d m)) m 0) = total (S m) (fun i => lweigh n (fst out i) (d i)) /\ snd out = f_a.
Proof.
  intros w f_a W out.
  assert (Wg : within_face (lv m) (sv m) n (top_face (d m))).
  { destruct (W m (le_n m)) as (A & _ & _ & _ & _ & B). split; [exact A|exact B]. }
  destruct (toa_a_run n solve tsolve Solve TSolve ls f m Reg lv sv cs d (top_face (d m)) Carry Codes Read) with (n_layers := S m) (surface := @None face) (w := w) (i := m)
    as (E2 & E3 & E).
  - intros i Hi. apply W. lia.
  - exact Wg.
  - intros i Hi. unfold under. destruct (open_is (S i) Hi) as (y_l & ->). reflexivity.
  - intros i Hi. apply Nat.eqb_neq. lia.
  - lia.
  - split; [|reflexivity]. rewrite Nat.sub_diag in E. cbn [AddingAdjLoops.dstack] in E. rewrite E. unfold out, toa_a. cbv zeta. cbn [fst snd].
    change (loop (S m) ?h ?x) with (h m (loop m h x)). set (s := loop m _ _) in *. clearbody s.
    unfold toa_a_step. replace (S m - 1)%nat with m by lia. rewrite Nat.eqb_refl. cbn [handed t1 t2 t3 total].
    rewrite set1_same, E2. f_equal; [apply total_ext; intros k Hk; rewrite set1_other by lia; reflexivity|].
    unfold lweigh, fweigh. cbn [no_layer top_face fR fS Rm Tm Sm Rp Tp Sp]. rewrite !mw_zero_l, !vw_zero_l. ring.
Qed.
End Open.

(* ------------------------------------------------------------------------- *)
(** * xrtm_radiance_a.c *)
Definition dslab (Rr T : mat) (I1 I2 : vec) (R' T' : mat) (S' I1' I2' : vec) : vec :=
  vadd (vadd (vadd (mv n R' I1) (mv n Rr I1')) (vadd (mv n T' I2) (mv n T I2'))) S'.
Lemma slab_a_right : forall Rr T I1 I2 g z R' T' S' I1' I2', let z' := slab_a n Rr T I1 I2 g z in
  mw (hR z') R' + mw (hT z') T' + vw (hS z') S' + vw (h1 z') I1' + vw (h2 z') I2' =
  mw (hR z) R' + mw (hT z) T' + vw (hS z) S' + vw (h1 z) I1' + vw (h2 z) I2' + vw g (dslab Rr T I1 I2 R' T' S' I1' I2').
Proof.
  intros. unfold z', slab_a, dslab. cbn [hR hT hS h1 h2].
  rewrite !mw_add_l, !vw_add_l, !vw_add_r, (vw_outer n g R'), (vw_outer n g T'), (vw_mv n g Rr), (vw_mv n g T). ring.
Qed.
Lemma toa_ref_a_right : forall Rr I1 g R_a S_a I1_a R' S' I1', let z := toa_ref_a n Rr I1 g R_a S_a I1_a in
  mw (fst (fst z)) R' + vw (snd (fst z)) S' + vw (snd z) I1' =
  mw R_a R' + vw S_a S' + vw I1_a I1' + vw g (vadd (vadd (mv n R' I1) (mv n Rr I1')) S').
Proof.
  intros. unfold z, toa_ref_a. cbn [fst snd]. rewrite !mw_add_l, !vw_add_l, !vw_add_r, (vw_outer n g R'), (vw_mv n g Rr). ring.
Qed.

Section Boa.
Hypothesis Hn : (0 < n)%nat.
Lemma ctsolve_inverse : forall w p v, w ** p =~ ident -> p ** w =~ ident -> veq n (ctsolve tsolve w v) (mv n (transp p) v).
Proof.
  intros w p v H K i Hi. unfold ctsolve.
  assert (transp w ** transp p =~ ident) as H' by (rewrite <- AddingAdjMat.transp_mul, K; apply AddingAdjMat.transp_ident).
  assert (transp p ** transp w =~ ident) as K' by (rewrite <- AddingAdjMat.transp_mul, H; apply AddingAdjMat.transp_ident).
  rewrite (tsolve_mul n tsolve (transp w) (transp p) _ TSolve H' K' 0%nat i Hn Hi).
  unfold mmul, mv, transp. apply total_ext. intros. ring.
Qed.
Variables (R12 T12 R23 q : mat) (I3 I1 I2_m : vec).
Hypotheses (Q1 : i_sub (R12 ** R23) ** q =~ ident) (Q2 : q ** i_sub (R12 ** R23) =~ ident).
Variables (R12' T12' R23' : mat) (S12' I3' I1' : vec).
Definition dboa_m : vec :=
  mv n q (vadd (vadd (vadd (vadd (vadd (vadd (mv n R12' (mv n R23 I2_m)) (mv n R12 (mv n R23' I2_m))) (mv n R12' I3)) (mv n R12 I3')) (mv n T12' I1)) (mv n T12 I1')) S12').
Definition dboa_p : vec := vadd (vadd (mv n R23' I2_m) (mv n R23 dboa_m)) I3'.
Lemma boa_all_a_right : forall gp gm z, let z' := boa_all_a n tsolve R12 T12 R23 I3 I1 I2_m gp gm z in
  mw (bR12 z') R12' + mw (bT12 z') T12' + mw (bR23 z') R23' + vw (bS12 z') S12' + vw (b3 z') I3' + vw (b1 z') I1' =
  mw (bR12 z) R12' + mw (bT12 z) T12' + mw (bR23 z) R23' + vw (bS12 z) S12' + vw (b3 z) I3' + vw (b1 z) I1' + vw gp dboa_p + vw gm dboa_m.
Proof.
  intros gp gm z z'. unfold z', boa_all_a. cbv zeta. set (gm' := vadd gm (mv n (transp R23) gp)). set (t := ctsolve tsolve _ gm').
  cbn [bR12 bT12 bR23 bS12 b3 b1].
  assert (T : veq n t (mv n (transp q) gm')) by (apply ctsolve_inverse; assumption).
  assert (E : vw gp (mv n R23 dboa_m) + vw gm dboa_m = vw t (vadd (vadd (vadd (vadd (vadd (vadd (mv n R12' (mv n R23 I2_m)) (mv n R12 (mv n R23' I2_m))) (mv n R12' I3)) (mv n R12 I3')) (mv n T12' I1)) (mv n T12 I1')) S12')).
  { rewrite T, <- vw_mv. fold dboa_m. unfold gm'. rewrite vw_add_l, (vw_mv n gp R23). ring. }
  rewrite !vw_add_r in E. rewrite (vw_mv n t R12), (vw_outer n _ R23') in E. rewrite (vw_outer n t R12' (mv n R23 I2_m)), <- outer_right in E.
  rewrite <- outer_left in E. rewrite (vw_outer n t R12' I3), (vw_outer n t T12' I1), (vw_mv n t R12 I3'), (vw_mv n t T12 I1') in E.
  unfold dboa_p. rewrite !mw_add_l, !vw_add_l, !vw_add_r, (vw_outer n gp R23'). lra.
Qed.
End Boa.

(* ------------------------------------------------------------------------- *)
(** * The radiances at the top and at the bottom above a surface *)
Section Both.
Hypothesis Hn : (0 < n)%nat.
Variables (y c' : layer) (f g : face) (t t' : vec).
Hypothesis Rg : regular n (Rp y) (fR f).
Let pm := boa_all n solve (Rp y) (Tm y) (fR f) (Sm y) (fS f) t.
Definition d_down (q : mat) : vec := dboa_m (Rp y) (Tm y) (fR f) q (fS f) t (snd pm) (Rp c') (Tm c') (fR g) (Sm c') (fS g) t'.
Definition d_up (q : mat) : vec := dboa_p (Rp y) (Tm y) (fR f) q (fS f) t (snd pm) (Rp c') (Tm c') (fR g) (Sm c') (fS g) t'.
Definition d_top (q : mat) : vec := dslab (Rm y) (Tp y) t (fst pm) (Rm c') (Tp c') (Sp c') t' (d_up q).
Lemma both_surface_right : forall q N nu ul s P' M', i_sub (Rp y ** fR f) ** q =~ ident -> q ** i_sub (Rp y ** fR f) =~ ident -> ends_only N nu ul ->
  shows N nu ul P' M' (d_top q) t' (d_up q) (d_down q) ->
  let s' := both_surface_a n tsolve N nu ul y f t (fst pm) (snd pm) s in
  lweigh n (ya s') c' + mw (yR s') (fR g) + vw (yn s') (fS g) + vw (y1 s') t' =
  lweigh n (ya s) c' + mw (yR s) (fR g) + vw (yn s) (fS g) + vw (y1 s) t' + total nu (fun i => vw (gps s i) (P' i) + vw (gms s i) (M' i)).
Proof.
  intros q N nu ul s P' M' Q1 Q2 En Sh. cbv zeta. unfold both_surface_a. cbv zeta.
  destruct En as (HN & [(-> & [U0|U0])|(-> & U0 & U1)]).
  - destruct (proj1 (Sh 0%nat ltac:(lia)) U0) as [E00 E01]. rewrite U0. destruct (Nat.eqb_spec 0 N) as [|_]; [lia|]. cbn [Nat.eqb Nat.ltb Nat.leb andb total]. rewrite E00, E01.
    match goal with |- context [slab_a n ?a ?b ?c ?d ?e ?h] => pose proof (slab_a_right a b c d e h (Rm c') (Tp c') (Sp c') t' (d_up q)) as E1; set (z1 := slab_a n a b c d e h) in * end.
    cbn [hR hT hS h1 h2] in E1.
    match goal with |- context [boa_all_a n tsolve ?a ?b ?c ?d ?e ?h ?u ?v ?w] =>
      pose proof (boa_all_a_right Hn a b c q d e h Q1 Q2 (Rp c') (Tm c') (fR g) (Sm c') (fS g) t' u v w) as E2; set (z2 := boa_all_a n tsolve a b c d e h u v w) in * end.
    cbn [bR12 bT12 bR23 bS12 b3 b1 ya yR y1 yn Rm Tm Sm Rp Tp Sp] in E2. fold (d_up q) in E2. fold (d_down q) in E2.
    cbv zeta in E1, E2. fold z1 in E1. fold z2 in E2. unfold lweigh. cbn [ya yR y1 yn Rm Tm Sm Rp Tp Sp]. fold (d_top q) in E1.
    rewrite ?vw_add_l in *. rewrite !vw_zero_l in *. lra.
  - destruct (proj2 (Sh 0%nat ltac:(lia)) U0) as [E00 E01]. rewrite U0, Nat.eqb_refl. destruct (Nat.eqb_spec N 0) as [|_]; [lia|]. cbn [total]. rewrite E00, E01.
    match goal with |- context [boa_all_a n tsolve ?a ?b ?c ?d ?e ?h ?u ?v ?w] =>
      pose proof (boa_all_a_right Hn a b c q d e h Q1 Q2 (Rp c') (Tm c') (fR g) (Sm c') (fS g) t' u v w) as E2; set (z2 := boa_all_a n tsolve a b c d e h u v w) in * end.
    cbn [bR12 bT12 bR23 bS12 b3 b1 ya yR y1 yn Rm Tm Sm Rp Tp Sp] in E2. fold (d_up q) in E2. fold (d_down q) in E2.
    cbv zeta in E2. fold z2 in E2. unfold lweigh. cbn [ya yR y1 yn Rm Tm Sm Rp Tp Sp]. lra.
  - destruct (proj1 (Sh 0%nat ltac:(lia)) U0) as [E00 E01]. destruct (proj2 (Sh 1%nat ltac:(lia)) U1) as [E10 E11].
    rewrite U0, U1, (Nat.eqb_refl N). destruct (Nat.eqb_spec 0 N) as [|_]; [lia|]. cbn [Nat.eqb Nat.ltb Nat.leb andb total]. rewrite E00, E01, E10, E11.
    match goal with |- context [slab_a n ?a ?b ?c ?d ?e ?h] => pose proof (slab_a_right a b c d e h (Rm c') (Tp c') (Sp c') t' (d_up q)) as E1; set (z1 := slab_a n a b c d e h) in * end.
    cbn [hR hT hS h1 h2] in E1.
    match goal with |- context [boa_all_a n tsolve ?a ?b ?c ?d ?e ?h ?u ?v ?w] =>
      pose proof (boa_all_a_right Hn a b c q d e h Q1 Q2 (Rp c') (Tm c') (fR g) (Sm c') (fS g) t' u v w) as E2; set (z2 := boa_all_a n tsolve a b c d e h u v w) in * end.
    cbn [bR12 bT12 bR23 bS12 b3 b1 ya yR y1 yn Rm Tm Sm Rp Tp Sp] in E2. fold (d_up q) in E2. fold (d_down q) in E2.
    cbv zeta in E1, E2. fold z1 in E1. fold z2 in E2. unfold lweigh. cbn [ya yR y1 yn Rm Tm Sm Rp Tp Sp]. fold (d_top q) in E1.
    rewrite ?vw_add_l in *. lra.
Qed.
(** Families of radiances that solve the equations have these derivatives. *)
Lemma both_field : forall (C : R -> layer) (G : R -> face) (T : R -> vec) p q, C p = y -> G p = f -> T p = t ->
  lderiv n C p c' -> fderiv n G p g -> vderiv n T p t' -> i_sub (Rp y ** fR f) ** q =~ ident -> q ** i_sub (Rp y ** fR f) =~ ident ->
  forall U0 D U, around p (fun s => interacts n (C s) (T s) (U s) (U0 s) (D s) /\ reflects n (G s) (D s) (U s)) -> forall w,
  derivable_pt_lim (fun s => vw w (U0 s)) p (vw w (d_top q)) /\ derivable_pt_lim (fun s => vw w (U s)) p (vw w (d_up q)) /\
  derivable_pt_lim (fun s => vw w (D s)) p (vw w (d_down q)).
Proof.
  intros C G T p q EC EG ET DC DG DT Q1 Q2 U0 D U A w.
  destruct (boa_all_deriv n solve Solve Hn C G T p c' g t' q y f t EC EG ET Q1 Q2 DC DG DT (d_up q) (d_down q)) as [Dd Du].
  { fold pm. unfold d_down, dboa_m, d_m. rewrite ?col_mv, ?col_vadd. repeat (rewrite col_vadd || rewrite col_mv). reflexivity. }
  { fold pm. unfold d_up, dboa_p, d_p. repeat (rewrite col_vadd || rewrite col_mv). fold (d_down q).
    assert (X : col (d_down q) =~ d_m n (Rp y) (Tm y) (fR f) q (fS f) t (fS g) t' (Rp c') (Tm c') (fR g) (Sm c') (snd pm)).
    { unfold d_down, dboa_m, d_m. repeat (rewrite col_vadd || rewrite col_mv). reflexivity. }
    rewrite X. reflexivity. }
  set (qm s := boa_all n solve (Rp (C s)) (Tm (C s)) (fR (G s)) (Sm (C s)) (fS (G s)) (T s)) in *.
  assert (Nr : around p (fun s => regular n (Rp (C s)) (fR (G s)))).
  { destruct DC as (_ & _ & _ & D4 & _). destruct DG as [DG1 _]. apply (regular_around n (fun s => Rp (C s)) (fun s => fR (G s)) p _ _ D4 DG1).
    rewrite EC, EG. exact Rg. }
  assert (Nf : around p (fun s => veq n (U0 s) (slab n (Rm (C s)) (Tp (C s)) (Sp (C s)) (T s) (fst (qm s))) /\ veq n (D s) (snd (qm s)) /\ veq n (U s) (fst (qm s)))).
  { eapply around_imp; [|apply (around_and _ _ _ A Nr)]. intros s [[A1 A2] R1].
    apply (field_unique n (C s) (G s) (T s) R1 _ _ _ _ _ _ A1 A2); [apply (boa_all_interacts n solve Solve Hn), R1|apply boa_all_reflects]. }
  assert (Ep : qm p = pm) by (unfold qm, pm; rewrite EC, EG, ET; reflexivity).
  assert (Ds : vderiv n (fun s => slab n (Rm (C s)) (Tp (C s)) (Sp (C s)) (T s) (fst (qm s))) p (d_top q)).
  { destruct DC as (D1 & D2 & D3 & D4 & D5 & D6). eapply vderiv_ext; [|apply slab_deriv; [exact D1|exact D5|exact D6|exact DT|exact Du]].
    cbv beta. rewrite Ep, EC, ET. intros i Hi. reflexivity. }
  refine (conj _ (conj _ _)).
  - apply (around_ext (fun s => vw w (slab n (Rm (C s)) (Tp (C s)) (Sp (C s)) (T s) (fst (qm s))))); [|apply (vw_deriv n w _ p _ Ds)].
    eapply around_imp; [|exact Nf]. intros s (X & _). rewrite X. reflexivity.
  - apply (around_ext (fun s => vw w (fst (qm s)))); [|apply (vw_deriv n w _ p _ Du)].
    eapply around_imp; [|exact Nf]. intros s (_ & _ & X). rewrite X. reflexivity.
  - apply (around_ext (fun s => vw w (snd (qm s)))); [|apply (vw_deriv n w _ p _ Dd)].
    eapply around_imp; [|exact Nf]. intros s (_ & X & _). rewrite X. reflexivity.
Qed.
End Both.
End Rad.
