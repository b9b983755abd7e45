(** Reverse mode through all layers. *)
From Coq Require Import Reals Bool Arith Lia Lra Setoid Morphisms Ncring Ncring_tac ZArith List Ranalysis5.
From Verif Require Import Base DerivsModel DerivsSpec DerivsProofs DeltaMSpec DeltaMProofs BeamProofs AddingModel AddingSpec AddingMat AddingJoin AddingDeriv
  AddingLin AddingCalls RadianceModel AddingAdjModel AddingAdjSpec AddingAdjMat AddingAdjPair.
Open Scope R_scope.

Lemma around_ext : forall f g p l, around p (fun t => f t = g t) -> derivable_pt_lim f p l -> derivable_pt_lim g p l.
Proof.
  intros f g p l (e & He & H) D. apply (derivable_pt_lim_locally_ext f g p (p - e) (p + e)); [lra| |exact D].
  intros t T. apply H. apply Rabs_def1; lra.
Qed.

Section Loops.
Variable n : nat.
Local Instance o : @Ring_ops mat zmat ident madd (mmul n) msub mneg (meq n) := mat_ops n.
Local Instance r : Ring (Ro := o) := mat_ring n.
Notation "a =~ b" := (meq n a b) (at level 70).
Notation "a ** b" := (mmul n a b) (at level 40, left associativity).
Notation "a +++ b" := (madd a b) (at level 50, left associativity).
Notation mw := (mweigh n).
Notation vw := (vweigh n).
Variable solve tsolve : mat -> mat -> mat.
Hypothesis Solve : solver n solve.
Hypothesis TSolve : tsolver n tsolve.
Notation chain := (chain n solve).
Notation stack := (stack n solve).
Notation djoin := (djoin n solve).
Notation dface := (dface n solve).
Ltac cols := repeat (rewrite col_vadd || rewrite col_mv || rewrite col_one || rewrite col_none || rewrite col_zero).

(** What does not vary below and above does not vary in the pair. *)
Section Still.
Variables (a b x y : layer).
Hypothesis Rg : regular n (Rm b) (Rp a).
Hypotheses (X1 : Rm x =~ zmat) (X2 : Tm x =~ zmat) (X4 : Rp x =~ zmat) (X5 : Tp x =~ zmat).
Hypotheses (Y1 : Rm y =~ zmat) (Y2 : Tm y =~ zmat) (Y4 : Rp y =~ zmat) (Y5 : Tp y =~ zmat).
Lemma still_p : solve (i_sub (Rm b ** Rp a)) (Tp x +++ solve (i_sub (Rm b ** Rp a)) (Tp a) ** (Rm y ** Rp a +++ Rm b ** Rp x)) =~ zmat.
Proof.
  destruct (regular_inverse n _ _ Rg) as (ip & P1 & P2). rewrite (solve_p n solve Solve a b ip P1 P2). rewrite X5, Y1, X4. non_commutative_ring.
Qed.
Lemma still_q : solve (i_sub (Rp a ** Rm b)) (Tm y +++ solve (i_sub (Rp a ** Rm b)) (Tm b) ** (Rp x ** Rm b +++ Rp a ** Rm y)) =~ zmat.
Proof.
  destruct (regular_inverse n _ _ Rg) as (ip & P1 & P2). destruct (push_through n _ _ ip P1 P2) as [Q1 Q2].
  rewrite (solve_q n solve Solve a b _ Q1 Q2). rewrite Y2, Y1, X4. non_commutative_ring.
Qed.
Lemma still_operators : let z := djoin a b x y in Rm z =~ zmat /\ Tm z =~ zmat /\ Rp z =~ zmat /\ Tp z =~ zmat.
Proof.
  cbn [AddingLin.djoin Rm Tm Rp Tp]. refine (conj _ (conj _ (conj _ _))); rewrite ?still_p, ?still_q.
  - rewrite X1, X2, Y1. non_commutative_ring.
  - rewrite X2. non_commutative_ring.
  - rewrite Y4, X4, Y5. non_commutative_ring.
  - rewrite Y5. non_commutative_ring.
Qed.
Hypotheses (X3 : col (Sm x) =~ zmat) (X6 : col (Sp x) =~ zmat) (Y3 : col (Sm y) =~ zmat) (Y6 : col (Sp y) =~ zmat).
Lemma still_sources : let z := djoin a b x y in col (Sm z) =~ zmat /\ col (Sp z) =~ zmat.
Proof.
  cbn [AddingLin.djoin Sm Sp]. split; cols; rewrite ?still_p, ?still_q.
  - rewrite X3, Y3, Y6, X4. non_commutative_ring.
  - rewrite X6, Y6, Y1, X3. non_commutative_ring.
Qed.
End Still.
Lemma djoin_within : forall l1 s1 l2 s2 a b x y, carried l1 s1 = true -> carried l2 s2 = true -> regular n (Rm b) (Rp a) ->
  within l1 s1 n x -> within l2 s2 n y -> within (l1 || l2) (s1 || s2) n (djoin a b x y).
Proof.
  intros l1 s1 l2 s2 a b x y C1 C2 Rg (X1 & X2 & X3 & X4 & X5 & X6) (Y1 & Y2 & Y3 & Y4 & Y5 & Y6).
  assert (forall x, within true true n x) as Full by (intros; repeat apply conj; intros i; intros; reflexivity).
  destruct (l1 || l2) eqn:E.
  { destruct l1, l2, s1, s2; try discriminate C1; try discriminate C2; try discriminate E; apply Full. }
  destruct l1, l2; try discriminate E. cbn [flagged Rm Tm Sm Rp Tp Sp] in *.
  destruct (still_operators a b x y Rg X1 X2 X4 X5 Y1 Y2 Y4 Y5) as (Z1 & Z2 & Z4 & Z5).
  destruct s1, s2; try (repeat apply conj; cbn [orb flagged Rm Tm Sm Rp Tp Sp]; try assumption; intros i; intros; reflexivity).
  destruct (still_sources a b x y Rg X4 X5 Y1 Y2) as [Z3 Z6].
  1-4: rewrite <- (col_zero n); apply veq_col; assumption.
  rewrite <- (col_zero n) in Z3, Z6. apply veq_col in Z3, Z6.
  repeat apply conj; cbn [orb flagged Rm Tm Sm Rp Tp Sp]; assumption.
Qed.
Lemma dface_within : forall l1 s1 l2 s2 l f x g, carried l1 s1 = true -> carried l2 s2 = true -> regular n (fR f) (Rp l) ->
  within l1 s1 n x -> within_face l2 s2 n g -> within_face (l1 || l2) (s1 || s2) n (dface l f x g).
Proof.
  intros l1 s1 l2 s2 l f x g C1 C2 Rg Wx [Y1 Y2].
  assert (within l2 s2 n (solid g)) as Wy.
  { destruct l2, s2; repeat apply conj; cbn [flagged flagged_face solid Rm Tm Sm Rp Tp Sp fR fS] in *; try assumption; intros i; intros; reflexivity. }
  destruct (djoin_within l1 s1 l2 s2 l (solid f) x (solid g) C1 C2 Rg Wx Wy) as (A & _ & _ & _ & _ & B). split; assumption.
Qed.

(* ------------------------------------------------------------------------- *)
(** * get_total_R_T_S_U_W_V_a *)
Fixpoint dchain (ls d : nat -> layer) (m : nat) : layer :=
  match m with O => d O | S k => djoin (chain ls k) (ls m) (dchain ls d k) (d m) end.

Section Down.
Variables (ls : nat -> layer) (m : nat).
Hypothesis Reg : forall k, (k < m)%nat -> regular n (Rm (ls (S k))) (Rp (chain ls k)).
Lemma sum_of_is : forall k, (k <= m)%nat -> sum_of n solve ls (S k) = chain ls k.
Proof.
  intros k Hk. unfold sum_of.
  destruct (total_ok n solve Solve 0 ls (fun _ _ => no_layer) (fun _ _ => 0%Z) (fun _ _ => false) (fun _ _ => false) m Reg) with
    (x := no_layer) (x_l := fun _ : nat => no_layer) (k := k) as (y_l & -> & _); try reflexivity; try exact Hk; intros; lia.
Qed.
Section Family.
Variables (F : R -> nat -> layer) (d : nat -> layer) (p : R).
Hypotheses (EF : forall i, F p i = ls i) (DF : forall i, (i <= m)%nat -> lderiv n (fun t => F t i) p (d i)).
Lemma chain_at : forall k, chain (F p) k = chain ls k.
Proof. induction k as [|k IH]; cbn [AddingCalls.chain]; rewrite EF; [|rewrite IH]; reflexivity. Qed.
Lemma chain_deriv : forall k, (k <= m)%nat -> lderiv n (fun t => chain (F t) k) p (dchain ls d k).
Proof.
  induction k as [|k IH]; intros Hk; cbn [AddingCalls.chain dchain]; [apply DF, Hk|].
  pose proof (join_deriv' n solve Solve (fun t => chain (F t) k) (fun t => F t (S k)) p _ _
    ltac:(cbv beta; rewrite EF, chain_at; apply Reg, Hk) (IH ltac:(lia)) (DF (S k) Hk)) as J.
  cbv beta in J. rewrite EF, chain_at in J. exact J.
Qed.
Lemma chain_near : forall k, (k <= m)%nat -> around p (fun t => forall i, (i < k)%nat -> regular n (Rm (F t (S i))) (Rp (chain (F t) i))).
Proof.
  induction k as [|k IH]; intros Hk; [apply around_true; intros; lia|].
  pose proof (regular_around n (fun t => Rm (F t (S k))) (fun t => Rp (chain (F t) k)) p _ _
    ltac:(destruct (DF (S k) Hk) as (X & _); exact X) ltac:(destruct (chain_deriv k ltac:(lia)) as (_ & _ & _ & X & _); exact X)) as N.
  cbv beta in N. rewrite EF, chain_at in N. specialize (N (Reg k Hk)).
  eapply around_imp; [|apply (around_and _ _ _ (IH ltac:(lia)) N)]. intros t [T1 T2] i Hi.
  destruct (Nat.eq_dec i k) as [->|Ni]; [exact T2|apply T1; lia].
Qed.
(** Any operators that stand for the layers *)
Lemma chain_any : forall g c, around p (fun t => stands_for n m (F t) (c t)) -> derivable_pt_lim (fun t => lweigh n g (c t)) p (lweigh n g (dchain ls d m)).
Proof.
  intros g c A. apply (around_ext (fun t => lweigh n g (chain (F t) m))).
  - eapply around_imp; [|apply (around_and _ _ _ A (chain_near m (le_n m)))]. intros t [T1 T2]. apply lw_leq, determined.
    intros d1 u2 u1 d2 H. apply T1. apply (chain_stands n solve Solve (F t) m T2). exact H.
  - apply (lw_deriv n g (fun t => chain (F t) m)). apply chain_deriv, le_n.
Qed.
End Family.

Section Run.
Variables (lv sv : nat -> bool) (cs : nat -> Z) (d : nat -> layer).
Hypothesis Carry : forall i, (i <= m)%nat -> carried (lv i) (sv i) = true.
Hypothesis Codes : forall i, (0 < i <= m)%nat -> cs i = down_code (some i lv) (some i sv) (lv i) (sv i).
Hypothesis W : forall i, (i <= m)%nat -> within (lv i) (sv i) n (d i).
Lemma some_carried : forall i, (i <= S m)%nat -> carried (some i lv) (some i sv) = true.
Proof.
  induction i as [|i IH]; intros Hi; [reflexivity|]. rewrite !some_S. specialize (IH ltac:(lia)). pose proof (Carry i ltac:(lia)) as C.
  destruct (some i lv), (some i sv), (lv i), (sv i); cbn in *; congruence.
Qed.
Lemma dchain_within : forall k, (k <= m)%nat -> within (some (S k) lv) (some (S k) sv) n (dchain ls d k).
Proof.
  induction k as [|k IH]; intros Hk; cbn [dchain].
  - rewrite !some_S. cbn [some seq existsb orb]. apply W, Hk.
  - rewrite (some_S (S k)), (some_S (S k) sv). apply djoin_within; [apply some_carried; lia|apply Carry, Hk|apply Reg, Hk|apply IH; lia|apply W, Hk].
Qed.
Lemma set1_same : forall A (f : nat -> A) i v, set1 f i v i = v.
Proof. intros. unfold set1. rewrite Nat.eqb_refl. reflexivity. Qed.
Lemma set1_other : forall A (f : nat -> A) i v k, k <> i -> set1 f i v k = f k.
Proof. intros. unfold set1. destruct (Nat.eqb_spec k i); [contradiction|reflexivity]. Qed.
Lemma no_layer_weighs : forall x, lweigh n no_layer x = 0.
Proof. intros x. unfold lweigh, no_layer. cbn [Rm Tm Sm Rp Tp Sp]. rewrite !mw_zero_l, !vw_zero_l. ring. Qed.
Lemma no_face_weighs : forall x, fweigh n no_face x = 0.
Proof. intros x. unfold fweigh, no_face. cbn [fR fS]. rewrite !mw_zero_l, !vw_zero_l. ring. Qed.
Lemma total_a_run : forall k s, (k <= m)%nat -> r2 s = no_layer -> r3 s = no_layer ->
  let s' := loop_down (S k) (total_a_step n solve tsolve ls cs) s in
  (forall i, (k < i)%nat -> given s' i = given s i) /\
  lweigh n (r1 s) (dchain ls d k) = total (S k) (fun i => lweigh n (given s' i) (d i)).
Proof.
  induction k as [|k IH]; intros s Hk E2 E3 s'.
  - assert (s' = total_a_step n solve tsolve ls cs 0 s) as -> by (unfold s'; rewrite loop_down_S; reflexivity).
    unfold total_a_step. cbn [Nat.eqb given r1 r2 r3 total dchain]. split.
    + intros i Hi. apply set1_other. lia.
    + rewrite set1_same. ring.
  - set (s1 := total_a_step n solve tsolve ls cs (S k) s).
    assert (r2 s1 = no_layer /\ r3 s1 = no_layer) as [F2 F3] by (split; reflexivity).
    specialize (IH s1 ltac:(lia) F2 F3). cbv zeta in IH.
    assert (s' = loop_down (S k) (total_a_step n solve tsolve ls cs) s1) as Es by (unfold s'; rewrite loop_down_S; reflexivity).
    rewrite <- Es in IH. clearbody s'. destruct IH as [I1 I2].
    assert (given s' (S k) = kb (layer_add_all_a n solve tsolve 1 (cs (S k)) (sum_of n solve ls (S k)) (ls (S k))
      {| ka := r3 s; kb := r2 s; kc := r1 s; kt := rt s |})) as G.
    { rewrite (I1 (S k) (Nat.lt_succ_diag_r k)). unfold s1, total_a_step. cbn [Nat.eqb given r2]. apply set1_same. }
    split.
    + intros i Hi. rewrite (I1 i) by lia. unfold s1, total_a_step. cbn [Nat.eqb given]. apply set1_other. lia.
    + change (total (S (S k)) ?f) with (total (S k) f + f (S k)). cbv beta. rewrite <- I2, G. unfold s1, total_a_step. cbn [Nat.eqb r1 dchain].
      rewrite (Codes (S k)) by lia. rewrite sum_of_is by lia.
      pose proof (pair_right n solve tsolve Solve TSolve _ _ _ _ (chain ls k) (ls (S k)) (dchain ls d k) (d (S k))
        {| ka := r3 s; kb := r2 s; kc := r1 s; kt := rt s |} (Reg k Hk) (dchain_within k ltac:(lia)) (W (S k) Hk)) as P.
      cbv zeta in P. cbn [ka kb kc] in P. rewrite E2, E3, !no_layer_weighs in P. rewrite E2, E3. lra.
Qed.
Lemma total_a_right : forall g, lweigh n g (dchain ls d m) = total (S m) (fun i => lweigh n (given (total_a n solve tsolve (S m) ls cs g) i) (d i)).
Proof.
  intros g. unfold total_a.
  apply (total_a_run m {| r1 := g; r2 := no_layer; r3 := no_layer; given := fun _ => no_layer; rt := 0 |} (le_n m) eq_refl eq_refl).
Qed.
End Run.
End Down.

(* ------------------------------------------------------------------------- *)
(** * get_total_TOA_R_S_U_V_a *)
Lemma stack_shift : forall ls f i m k, stack (fun k => ls (i + k)%nat) f m k = stack ls f m (i + k).
Proof.
  intros ls f i m. induction m as [|m IH]; intros k; cbn [AddingCalls.stack]; [reflexivity|]. rewrite IH.
  replace (i + S k)%nat with (S (i + k)) by lia. reflexivity.
Qed.
Fixpoint dstack (ls : nat -> layer) (f : face) (d : nat -> layer) (g : face) (m k : nat) : face :=
  match m with O => g | S m => dface (ls k) (stack ls f m (S k)) (d k) (dstack ls f d g m (S k)) end.

Section Up.
Variables (ls : nat -> layer) (f : face) (N : nat).
Hypothesis Reg : forall m, (m < N)%nat -> regular n (fR (stack ls f m (N - m))) (Rp (ls (N - S m)%nat)).
(** The face saved below layer i *)
Lemma surface_is : forall i x_l, (i <= N)%nat -> exists y_l,
  toa_surface n solve (N - i) 0 (fun k => ls (i + k)%nat) (fun _ _ => no_layer) (fun _ _ => 0%Z) f x_l = Ok (stack ls f (N - i) i, y_l).
Proof.
  intros i x_l Hi. set (M := (N - i)%nat).
  destruct (up_ok n solve Solve 0 M (fun k => ls (i + k)%nat) (fun _ _ => no_layer) (fun _ _ => 0%Z) (fun _ _ => false) (fun _ _ => false) f x_l) with (m := M)
    as (y_l & E & _); try (intros; lia).
  - intros m Hm. rewrite stack_shift. specialize (Reg m ltac:(lia)).
    replace (i + (M - m))%nat with (N - m)%nat by lia. replace (i + (M - S m))%nat with (N - S m)%nat by lia. exact Reg.
  - rewrite Nat.sub_diag, stack_shift in E. replace (i + 0)%nat with i in E by lia. exists y_l. exact E.
Qed.
Section Family.
Variables (F : R -> nat -> layer) (G : R -> face) (d : nat -> layer) (g : face) (p : R).
Hypotheses (EF : forall i, F p i = ls i) (EG : G p = f).
Hypotheses (DF : forall i, (i < N)%nat -> lderiv n (fun t => F t i) p (d i)) (DG : fderiv n G p g).
Lemma stack_at : forall m k, stack (F p) (G p) m k = stack ls f m k.
Proof. intros m k. rewrite EG. apply stack_ext, EF. Qed.
Lemma stack_deriv : forall m, (m <= N)%nat -> fderiv n (fun t => stack (F t) (G t) m (N - m)) p (dstack ls f d g m (N - m)).
Proof.
  induction m as [|m IH]; intros Hm; cbn [AddingCalls.stack dstack]; [exact DG|].
  specialize (IH ltac:(lia)). replace (N - m)%nat with (S (N - S m)) in IH by lia.
  pose proof (Reg m Hm) as Rg. replace (N - m)%nat with (S (N - S m)) in Rg by lia.
  pose proof (join_face_deriv n solve Solve (fun t => F t (N - S m)%nat) (fun t => stack (F t) (G t) m (S (N - S m))) p _ _
    ltac:(cbv beta; rewrite EF, stack_at; exact Rg) (DF (N - S m)%nat ltac:(lia)) IH) as J.
  cbv beta in J. rewrite EF, stack_at in J. exact J.
Qed.
Lemma stack_near : forall k, (k <= N)%nat ->
  around p (fun t => forall m, (m < k)%nat -> regular n (fR (stack (F t) (G t) m (N - m))) (Rp (F t (N - S m)%nat))).
Proof.
  induction k as [|k IH]; intros Hk; [apply around_true; intros; lia|].
  pose proof (regular_around n (fun t => fR (stack (F t) (G t) k (N - k))) (fun t => Rp (F t (N - S k)%nat)) p _ _
    ltac:(destruct (stack_deriv k ltac:(lia)) as [X _]; exact X) ltac:(destruct (DF (N - S k)%nat ltac:(lia)) as (_ & _ & _ & X & _); exact X)) as Nr.
  cbv beta in Nr. rewrite EF, stack_at in Nr. specialize (Nr (Reg k Hk)).
  eapply around_imp; [|apply (around_and _ _ _ (IH ltac:(lia)) Nr)]. intros t [T1 T2] m Hm.
  destruct (Nat.eq_dec m k) as [->|Nm]; [exact T2|apply T1; lia].
Qed.
Lemma stack_tops_near : around p (fun t => tops n N (F t) (G t) 0 (stack (F t) (G t) N 0)).
Proof.
  eapply around_imp; [|apply (stack_near N (le_n N))]. intros t T. apply stack_tops; [exact Solve|]. intros i Hi. apply T, Hi.
Qed.
Lemma stack_all : fderiv n (fun t => stack (F t) (G t) N 0) p (dstack ls f d g N 0).
Proof. pose proof (stack_deriv N (le_n N)) as D. rewrite Nat.sub_diag in D. exact D. Qed.
Lemma stack_any : forall w c, around p (fun t => tops n N (F t) (G t) 0 (c t)) ->
  derivable_pt_lim (fun t => fweigh n w (c t)) p (fweigh n w (dstack ls f d g N 0)).
Proof.
  intros w c A. apply (around_ext (fun t => fweigh n w (stack (F t) (G t) N 0))).
  - eapply around_imp; [|apply (around_and _ _ _ A stack_tops_near)]. intros t [T1 T2]. apply fw_feq, determined_face.
    intros dn up H. apply T1, T2, H.
  - apply (fw_deriv n w (fun t => stack (F t) (G t) N 0)), stack_all.
Qed.
End Family.

Section Run.
Variables (lv sv : nat -> bool) (cs : nat -> Z) (d : nat -> layer) (g : face).
Hypothesis Carry : forall i, (i <= N)%nat -> carried (lv i) (sv i) = true.
Hypothesis Codes : forall i, (i < N)%nat -> cs i = down_code (lv i) (sv i) (DerivsProofs.above i N lv) (DerivsProofs.above i N sv).
Hypothesis Read : forall i, (i < N)%nat -> unread (sv i) (DerivsProofs.above i N lv) (DerivsProofs.above i N sv) = false.
Hypothesis W : forall i, (i < N)%nat -> within (lv i) (sv i) n (d i).
Hypothesis Wg : within_face (lv N) (sv N) n g.
Lemma lower_carried : forall m, (m <= N)%nat -> carried (lower N m lv) (lower N m sv) = true.
Proof.
  intros m Hm. pose proof (lower_carry N m lv sv) as L. unfold carried in *.
  destruct (lower N m lv); [|reflexivity]. cbn. apply L; [|exact Hm|reflexivity].
  intros i Hi E. specialize (Carry i Hi). rewrite E in Carry. exact Carry.
Qed.
Lemma dstack_within : forall m, (m <= N)%nat -> within_face (lower N m lv) (lower N m sv) n (dstack ls f d g m (N - m)).
Proof.
  induction m as [|m IH]; intros Hm; cbn [dstack].
  - unfold lower. rewrite Nat.sub_0_r. cbn [seq existsb]. rewrite !orb_false_r. exact Wg.
  - specialize (IH ltac:(lia)). pose proof (Reg m Hm) as Rg. rewrite !lower_S by lia. replace (N - m)%nat with (S (N - S m)) in * by lia.
    apply dface_within; [apply Carry; lia|apply lower_carried; lia|exact Rg|apply W; lia|exact IH].
Qed.
Variables (n_layers : nat) (surface : option face).
Hypothesis Under : forall i, (i < N)%nat -> under n solve n_layers ls surface i = stack ls f (N - S i) (S i).
Hypothesis Faces : forall i, (i < N)%nat -> match surface with None => Nat.eqb i (n_layers - 1) | Some _ => false end = false.
Lemma toa_a_run : forall w i, (i <= N)%nat ->
  let s := loop i (toa_a_step n solve tsolve n_layers ls surface cs) {| t1 := w; t2 := no_layer; t3 := no_face; handed := fun _ => no_layer; tt_ := 0 |} in
  t2 s = no_layer /\ t3 s = no_face /\
  fweigh n w (dstack ls f d g N 0) = total i (fun i => lweigh n (handed s i) (d i)) + fweigh n (t1 s) (dstack ls f d g (N - i) i).
Proof.
  intros w. induction i as [|i IH]; intros Hi s.
  - refine (conj eq_refl (conj eq_refl _)). cbn [s loop total t1]. rewrite Nat.sub_0_r. ring.
  - specialize (IH ltac:(lia)). cbv zeta in IH. unfold s. change (loop (S i) ?h ?x) with (h i (loop i h x)).
    set (s1 := loop i _ _) in *. clearbody s1. destruct IH as (E2 & E3 & IH). unfold toa_a_step. rewrite (Faces i Hi).
    rewrite (Under i Hi), (Codes i Hi). cbn [t1 t2 t3 handed].
    assert (Em : (N - i = S (N - S i))%nat) by lia. rewrite Em in IH. cbn [dstack] in IH.
    pose proof (Reg (N - S i) ltac:(lia)) as Rg.
    replace (N - (N - S i))%nat with (S i) in Rg by lia. replace (N - S (N - S i))%nat with i in Rg by lia.
    destruct (regular_inverse n _ _ Rg) as (ip & P1 & P2).
    pose proof (dstack_within (N - S i) ltac:(lia)) as Wd. rewrite !lower_above in Wd by lia.
    replace (N - S (N - S i))%nat with i in Wd by lia. replace (N - (N - S i))%nat with (S i) in Wd by lia.
    pose proof (lower_carried (N - S i) ltac:(lia)) as Cd. rewrite !lower_above in Cd by lia. replace (N - S (N - S i))%nat with i in Cd by lia.
    pose proof (ref_right n solve tsolve Solve TSolve (ls i) (d i) (stack ls f (N - S i) (S i)) (dstack ls f d g (N - S i) (S i)) ip
      {| qa := t2 s1; qb := t3 s1; qc := t1 s1; qt := tt_ s1 |} P1 P2 false _ _ _ _ (Carry i ltac:(lia)) Cd (Read i Hi) (W i Hi) Wd) as B.
    unfold ref_code in B.
    set (z := layer_add_ref_a _ _ _ _ _ _ _ _ _) in *. clearbody z. cbn [qa qb qc] in B. rewrite E2, E3, no_layer_weighs, no_face_weighs in B.
    refine (conj eq_refl (conj eq_refl _)). cbn [total]. rewrite set1_same.
    rewrite (total_ext i _ (fun k => lweigh n (handed s1 k) (d k))) by (intros; rewrite set1_other by lia; reflexivity).
    rewrite IH. lra.
Qed.
End Run.
End Up.
End Loops.
