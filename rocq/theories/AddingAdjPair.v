(** Reverse mode through one pair of layers, or one layer and a face. *)
From Coq Require Import Reals Bool Arith Lia Lra Setoid Morphisms Ncring Ncring_tac ZArith.
From Verif Require Import Base DerivsModel DerivsSpec DeltaMSpec DeltaMProofs BeamProofs AddingModel AddingSpec AddingMat AddingJoin AddingDeriv AddingLin AddingCalls
  RadianceModel AddingAdjModel AddingAdjSpec AddingAdjMat.
Open Scope R_scope.

Section Pair.
Variable n : nat.
Local Instance o : @Ring_ops mat zmat ident madd (mmul n) msub mneg (meq n) := mat_ops n.
Local Instance r : Ring (Ro := o) := mat_ring n.
Notation "a =~ b" := (meq n a b) (at level 70).
Notation "a ** b" := (mmul n a b) (at level 40, left associativity).
Notation "a +++ b" := (madd a b) (at level 50, left associativity).
Notation mw := (mweigh n).
Notation vw := (vweigh n).
Variable solve tsolve : mat -> mat -> mat.
Hypothesis Solve : solver n solve.
Hypothesis TSolve : tsolver n tsolve.

Lemma mul_assoc' : forall a b c, a ** b ** c =~ a ** (b ** c).
Proof. intros. non_commutative_ring. Qed.
Lemma mul_add_r' : forall a b c, a ** (b +++ c) =~ a ** b +++ a ** c.
Proof. intros. non_commutative_ring. Qed.
Lemma mul_add_l' : forall a b c, (b +++ c) ** a =~ b ** a +++ c ** a.
Proof. intros. non_commutative_ring. Qed.
Local Instance mul_proper : Proper (meq n ==> meq n ==> meq n) (mmul n).
Proof. intros a b H c d K. rewrite H, K. reflexivity. Qed.

(** The weighted sum of the derivatives of what goes up *)
Section Gain.
Variables (a b x y : layer) (ip : mat).
Hypotheses (P1 : msub ident (Rm b ** Rp a) ** ip =~ ident) (P2 : ip ** msub ident (Rm b ** Rp a) =~ ident).
Let SP := solve_p n solve Solve a b ip P1 P2.
Local Instance solve_p_proper : Proper (meq n ==> meq n) (solve (i_sub (Rm b ** Rp a))).
Proof. intros u v H. rewrite SP, SP. rewrite H. reflexivity. Qed.
Lemma up_gain : forall Rg Tg Sg A B C K, A =~ Tp a ** ip -> B =~ Rm b ** Tm a -> veq n C (vadd (Sp b) (mv n (Rm b) (Sm a))) ->
  K =~ (Tg ** transp (Tp b) +++ Rg ** transp B +++ outer Sg C) ** transp ip ->
  let z := djoin n solve a b x y in
  mw Rg (Rm z) + mw Tg (Tp z) + vw Sg (Sp z) =
  mw Rg (Rm x) + mw (transp (Rm b) ** (transp A ** Rg)) (Tm x) + mw (transp (Rm b) ** (transp A ** K)) (Rp x) + mw K (Tp x) +
    vw Sg (Sp x) + vw (mv n (transp (Rm b)) (mv n (transp A) Sg)) (Sm x) +
  (mw (transp A ** (Rg ** transp (Tm a))) (Rm y) + mw (outer (mv n (transp A) Sg) (Sm a)) (Rm y) + mw (transp A ** (K ** transp (Rp a))) (Rm y) +
    mw (transp A ** Tg) (Tp y) + vw (mv n (transp A) Sg) (Sp y)).
Proof.
  intros Rg Tg Sg A B C K HA HB HC HK z.
  set (X := Tp x +++ A ** (Rm y ** Rp a +++ Rm b ** Rp x)).
  assert (DX : solve (i_sub (Rm b ** Rp a)) (Tp x +++ solve (i_sub (Rm b ** Rp a)) (Tp a) ** (Rm y ** Rp a +++ Rm b ** Rp x)) =~ X ** ip).
  { rewrite SP. unfold X. rewrite (SP (Tp a)), HA. reflexivity. }
  assert (HA' : solve (i_sub (Rm b ** Rp a)) (Tp a) =~ A) by (rewrite SP, HA; reflexivity).
  unfold z, djoin. cbn [Rm Tp Sp]. rewrite !mw_add_r, !vw_add_r.
  rewrite (mw_right n Rg (solve _ (Tp x +++ _))), (mw_right n Tg (solve _ (Tp x +++ _))).
  rewrite (vw_outer n Sg (solve _ (Tp x +++ _))), !DX, HA'.
  assert (EK : mw K X = mw (Rg ** transp (Rm b ** Tm a)) (X ** ip) + mw (Tg ** transp (Tp b)) (X ** ip) +
    mw (outer Sg (vadd (Sp b) (mv n (Rm b) (Sm a)))) (X ** ip)).
  { rewrite HK, <- HB, <- HC, !mw_right, <- !mw_add_l. apply mweigh_proper; [|reflexivity]. non_commutative_ring. }
  assert (EX : mw K X = mw K (Tp x) + mw (transp A ** (K ** transp (Rp a))) (Rm y) + mw (transp (Rm b) ** (transp A ** K)) (Rp x)).
  { unfold X. rewrite mw_add_r, mw_left, mw_add_r, mw_right, mw_left. rewrite mul_assoc'. ring. }
  assert (E1 : mw Rg (A ** (Rm y ** Tm a +++ Rm b ** Tm x)) = mw (transp A ** (Rg ** transp (Tm a))) (Rm y) + mw (transp (Rm b) ** (transp A ** Rg)) (Tm x)).
  { rewrite mw_left, mw_add_r, mw_right, mw_left, mul_assoc'. ring. }
  assert (E2 : vw Sg (mv n A (vadd (Sp y) (vadd (mv n (Rm y) (Sm a)) (mv n (Rm b) (Sm x))))) =
    vw (mv n (transp A) Sg) (Sp y) + mw (outer (mv n (transp A) Sg) (Sm a)) (Rm y) + vw (mv n (transp (Rm b)) (mv n (transp A) Sg)) (Sm x)).
  { rewrite vw_mv, !vw_add_r, vw_outer, (vw_mv n _ (Rm b)). ring. }
  rewrite E1, E2, (mw_left n Tg). lra.
Qed.
End Gain.

(** Directions *)
Lemma within_none : forall g x, within false false n x -> lweigh n g x = 0.
Proof.
  intros g x W. rewrite (lw_leq n g _ _ W). unfold lweigh. cbn [flagged Rm Tm Sm Rp Tp Sp]. rewrite !mw_zero_r, !vw_zero_r. ring.
Qed.
Lemma within_sources : forall s g x, within false s n x -> lweigh n g x = vw (Sm g) (Sm x) + vw (Sp g) (Sp x).
Proof.
  intros s g x (A & B & C & D & E & F). unfold lweigh. cbn [flagged Rm Tm Sm Rp Tp Sp] in *. rewrite A, B, D, E, !mw_zero_r. ring.
Qed.

(* ------------------------------------------------------------------------- *)
(** * Half of layer_add_all_a *)
Section Half.
Variables (s : saved) (a b x y w : layer) (ip : mat) (z : adjs).
Hypotheses (P1 : msub ident (Rm b ** Rp a) ** ip =~ ident) (P2 : ip ** msub ident (Rm b ** Rp a) =~ ident).
Hypotheses (HP : sP s = i_sub (Rm b ** Rp a)) (HA : sA s =~ Tp a ** ip) (HB : sB s =~ Rm b ** Tm a)
  (HC : veq n (sC s) (vadd (Sp b) (mv n (Rm b) (Sm a)))).
Hypotheses (W1 : Rm w =~ Rm (djoin n solve a b x y)) (W2 : Tp w =~ Tp (djoin n solve a b x y)) (W3 : veq n (Sp w) (Sp (djoin n solve a b x y))).
Let c := kc z.
Let E := Tp c ** transp (Tp b) +++ Rm c ** transp (sB s) +++ outer (Sp c) (sC s).
Let balance (z' : adjs) : Prop :=
  lweigh n (ka z') x + lweigh n (kb z') y + lweigh n (kc z') w = lweigh n (ka z) x + lweigh n (kb z) y + lweigh n (kc z) w.
Lemma tsolve_here : forall g, tsolve (sP s) g =~ g ** transp ip.
Proof. intros g. rewrite HP. apply tsolve_mul; [exact TSolve|rewrite i_sub_is; exact P1|rewrite i_sub_is; exact P2]. Qed.
Lemma up_here :
  mw (Rm c) (Rm w) + mw (Tp c) (Tp w) + vw (Sp c) (Sp w) =
  mw (Rm c) (Rm x) + mw (transp (Rm b) ** (transp (sA s) ** Rm c)) (Tm x) + mw (transp (Rm b) ** (transp (sA s) ** tsolve (sP s) E)) (Rp x) +
    mw (tsolve (sP s) E) (Tp x) +
    vw (Sp c) (Sp x) + vw (mv n (transp (Rm b)) (mv n (transp (sA s)) (Sp c))) (Sm x) +
  (mw (transp (sA s) ** (Rm c ** transp (Tm a))) (Rm y) + mw (outer (mv n (transp (sA s)) (Sp c)) (Sm a)) (Rm y) +
    mw (transp (sA s) ** (tsolve (sP s) E ** transp (Rp a))) (Rm y) +
    mw (transp (sA s) ** Tp c) (Tp y) + vw (mv n (transp (sA s)) (Sp c)) (Sp y)).
Proof.
  rewrite W1, W2, W3. apply (up_gain a b x y ip P1 P2 (Rm c) (Tp c) (Sp c) (sA s) (sB s) (sC s)); try assumption. apply tsolve_here.
Qed.
Ltac spread := unfold lweigh; cbn [ka kb kc kt incRm incTm incSm incRp incTp incSp cleared Rm Tm Sm Rp Tp Sp];
  rewrite ?transp_mul, ?mul_add_r', ?mw_add_l, ?vw_add_l, ?vw_one, ?mw_zero_l, ?vw_zero_l, ?mul_assoc'.
Lemma l_l_up_right : balance (l_l_up_a n tsolve s a b 1 z).
Proof.
  pose proof up_here as U. unfold balance, l_l_up_a. cbv zeta. fold c. fold E. spread. lra.
Qed.
Lemma u_l_up_right : within false false n x -> balance (u_l_up_a n tsolve s a b 1 z).
Proof.
  intros (X1 & X2 & X3 & X4 & X5 & X6). pose proof up_here as U. cbn [flagged Rm Tm Sm Rp Tp Sp] in *.
  unfold balance, u_l_up_a. cbv zeta. fold c. fold E. spread.
  rewrite X1, X2, X3, X4, X5, X6, !mw_zero_r, !vw_zero_r in U. lra.
Qed.
Lemma p_l_up_right : within false true n x -> balance (p_l_up_a n tsolve s a b 1 z).
Proof.
  intros (X1 & X2 & X3 & X4 & X5 & X6). pose proof up_here as U. cbn [flagged Rm Tm Sm Rp Tp Sp] in *.
  unfold balance, p_l_up_a. cbv zeta. fold c. fold E. spread.
  rewrite X1, X2, X4, X5, !mw_zero_r in U. lra.
Qed.
Lemma l_u_up_right : within false false n y -> balance (l_u_up_a n tsolve s (sA s ** Rm b) b z).
Proof.
  intros (X1 & X2 & X3 & X4 & X5 & X6). pose proof up_here as U. cbn [flagged Rm Tm Sm Rp Tp Sp] in *.
  unfold balance, l_u_up_a. cbv zeta. fold c. fold E. spread.
  rewrite X1, X5, X6, !mw_zero_r, !vw_zero_r in U. lra.
Qed.
Lemma l_p_up_right : within false true n y -> balance (l_p_up_a n tsolve s (sA s ** Rm b) b 1 z).
Proof.
  intros (X1 & X2 & X3 & X4 & X5 & X6). pose proof up_here as U. cbn [flagged Rm Tm Sm Rp Tp Sp] in *.
  unfold balance, l_p_up_a. cbv zeta. fold c. fold E. spread.
  rewrite X1, X5, !mw_zero_r in U. lra.
Qed.
End Half.

(* ------------------------------------------------------------------------- *)
(** * layer_add_all_a *)
Lemma pair_right : forall l1 s1 l2 s2 a b x y z, regular n (Rm b) (Rp a) -> within l1 s1 n x -> within l2 s2 n y ->
  let z' := layer_add_all_a n solve tsolve 1 (down_code l1 s1 l2 s2) a b z in
  lweigh n (ka z') x + lweigh n (kb z') y = lweigh n (ka z) x + lweigh n (kb z) y + lweigh n (kc z) (djoin n solve a b x y).
Proof.
  intros l1 s1 l2 s2 a b x y z Rg Wx Wy z'.
  destruct (regular_inverse n _ _ Rg) as (ip & P1 & P2). destruct (push_through n _ _ ip P1 P2) as [Q1 Q2].
  set (iq := ident +++ Rp a ** (ip ** Rm b)) in *.
  set (w := djoin n solve a b x y).
  set (z1 := all_up_a n solve tsolve 1 (down_code l1 s1 l2 s2) a b z).
  assert (U : lweigh n (ka z1) x + lweigh n (kb z1) y + lweigh n (kc z1) w = lweigh n (ka z) x + lweigh n (kb z) y + lweigh n (kc z) w /\
    Rm (kc z1) = zmat /\ Tp (kc z1) = zmat /\ Sp (kc z1) = zvec).
  { assert (HA : sA (up_saved n solve 1 a b) =~ Tp a ** ip) by (apply (solve_p n solve Solve a b ip P1 P2)).
    assert (HC : veq n (sC (up_saved n solve 1 a b)) (vadd (Sp b) (mv n (Rm b) (Sm a)))).
    { intros i Hi. unfold up_saved, vadd, vscale. cbn [sC]. ring. }
    unfold z1, all_up_a. cbv zeta.
    destruct (is (down_code l1 s1 l2 s2) ADDING_U_B) eqn:E1; [|destruct (is (down_code l1 s1 l2 s2) ADDING_B_S) eqn:E2].
    - assert (l1 = false /\ s1 = false) as [-> ->] by (destruct l1, s1, l2, s2; vm_compute in E1; try discriminate E1; auto).
      split; [|repeat split]. apply (u_l_up_right (up_saved n solve 1 a b) a b x y w ip z P1 P2); try assumption; reflexivity.
    - assert (l2 = false /\ s2 = true) as [-> ->] by (destruct l1, s1, l2, s2; vm_compute in E2; try discriminate E2; auto).
      split; [|repeat split]. apply (l_p_up_right (up_saved n solve 1 a b) a b x y w ip z P1 P2); try assumption; reflexivity.
    - split; [|repeat split]. apply (l_l_up_right (up_saved n solve 1 a b) a b x y w ip z P1 P2); try assumption; reflexivity. }
  destruct U as (U & C1 & C2 & C3).
  assert (D : lweigh n (kb (turned z')) (flip x) + lweigh n (ka (turned z')) (flip y) + lweigh n (kc (turned z')) (flip w) =
    lweigh n (kb (turned z1)) (flip x) + lweigh n (ka (turned z1)) (flip y) + lweigh n (kc (turned z1)) (flip w) /\
    Rm (kc (turned z')) = zmat /\ Tp (kc (turned z')) = zmat /\ Sp (kc (turned z')) = zvec /\ 
    Rp (kc (turned z')) = Rm (kc z1) /\ Tm (kc (turned z')) = Tp (kc z1) /\ Sm (kc (turned z')) = Sp (kc z1)).
  { assert (HA : sA (down_saved n solve 1 a b) =~ Tp (flip b) ** iq) by (apply (solve_q n solve Solve a b iq Q1 Q2)).
    assert (HC : veq n (sC (down_saved n solve 1 a b)) (vadd (Sp (flip a)) (mv n (Rm (flip a)) (Sm (flip b))))).
    { intros i Hi. unfold down_saved, vadd, vscale. cbn [sC flip Sp Sm Rm]. ring. }
    unfold z', layer_add_all_a. fold z1. unfold all_down_a. cbv zeta.
    assert (T : forall y, turned (turned y) = y) by (intros [[] [] [] t]; reflexivity).
    destruct (is (down_code l1 s1 l2 s2) ADDING_U_B) eqn:E1; [|destruct (is (down_code l1 s1 l2 s2) ADDING_B_S) eqn:E2]; rewrite T.
    - assert (l1 = false /\ s1 = false) as [-> ->] by (destruct l1, s1, l2, s2; vm_compute in E1; try discriminate E1; auto).
      split; [|repeat split]. rewrite (Rplus_comm (lweigh n _ (flip x))), (Rplus_comm (lweigh n (kb (turned z1)) (flip x))).
      apply (l_u_up_right (down_saved n solve 1 a b) (flip b) (flip a) (flip y) (flip x) (flip w) iq (turned z1) Q1 Q2); try assumption; try reflexivity.
      destruct Wx as (? & ? & ? & ? & ? & ?). repeat apply conj; assumption.
    - assert (l2 = false /\ s2 = true) as [-> ->] by (destruct l1, s1, l2, s2; vm_compute in E2; try discriminate E2; auto).
      split; [|repeat split]. rewrite (Rplus_comm (lweigh n _ (flip x))), (Rplus_comm (lweigh n (kb (turned z1)) (flip x))).
      apply (p_l_up_right (down_saved n solve 1 a b) (flip b) (flip a) (flip y) (flip x) (flip w) iq (turned z1) Q1 Q2); try assumption; try reflexivity.
      destruct Wy as (? & ? & ? & ? & ? & ?). repeat apply conj; assumption.
    - split; [|repeat split]. rewrite (Rplus_comm (lweigh n _ (flip x))), (Rplus_comm (lweigh n (kb (turned z1)) (flip x))).
      apply (l_l_up_right (down_saved n solve 1 a b) (flip b) (flip a) (flip y) (flip x) (flip w) iq (turned z1) Q1 Q2); try assumption; reflexivity. }
  destruct D as (D & D1 & D2 & D3 & D4 & D5 & D6).
  assert (Z : lweigh n (kc (turned z')) (flip w) = 0).
  { unfold lweigh. rewrite D1, D2, D3, D4, D5, D6, C1, C2, C3, !mw_zero_l, !vw_zero_l. ring. }
  rewrite Z in D. cbn [turned ka kb kc] in D. rewrite !lw_flip in D. lra.
Qed.

(* ------------------------------------------------------------------------- *)
(** * layer_add_ref_a *)
(** The patterns whose gradient the routine loses: the layer varies and the face does not *)
Definition unread (s1 l2 s2 : bool) : bool := s1 && negb l2 && negb s2.
Section Ref.
Variables (l x : layer) (f g : face) (ip : mat) (z : adj).
Hypotheses (P1 : msub ident (fR f ** Rp l) ** ip =~ ident) (P2 : ip ** msub ident (fR f ** Rp l) =~ ident).
Let s := ref_saved n solve 1 l f.
Let c := qc z.
Let w := dface n solve l f x g.
Let E := fR c ** transp (sB s) +++ outer (fS c) (sC s).
Let balance (z' : adj) : Prop :=
  lweigh n (qa z') x + fweigh n (qb z') g = lweigh n (qa z) x + fweigh n (qb z) g + fweigh n (qc z) w.
Lemma ref_here :
  mw (fR c) (fR w) + vw (fS c) (fS w) =
  mw (fR c) (Rm x) + mw (transp (fR f) ** (transp (sA s) ** fR c)) (Tm x) + mw (transp (fR f) ** (transp (sA s) ** tsolve (sP s) E)) (Rp x) +
    mw (tsolve (sP s) E) (Tp x) +
    vw (fS c) (Sp x) + vw (mv n (transp (fR f)) (mv n (transp (sA s)) (fS c))) (Sm x) +
  (mw (transp (sA s) ** (fR c ** transp (Tm l))) (fR g) + mw (outer (mv n (transp (sA s)) (fS c)) (Sm l)) (fR g) +
    mw (transp (sA s) ** (tsolve (sP s) E ** transp (Rp l))) (fR g) + vw (mv n (transp (sA s)) (fS c)) (fS g)).
Proof.
  assert (HC : veq n (sC s) (vadd (Sp (solid f)) (mv n (Rm (solid f)) (Sm l)))).
  { intros i Hi. unfold s, ref_saved, vadd, vscale. cbn [sC solid Sp Rm]. ring. }
  assert (HK : tsolve (sP s) E =~ (zmat ** transp (Tp (solid f)) +++ fR c ** transp (sB s) +++ outer (fS c) (sC s)) ** transp ip).
  { rewrite (tsolve_mul n tsolve (sP s) ip E TSolve); [|cbn [s ref_saved sP]; rewrite i_sub_is; assumption..].
    unfold E. cbn [solid Tp]. non_commutative_ring. }
  pose proof (up_gain l (solid f) x (solid g) ip P1 P2 (fR c) zmat (fS c) (sA s) (sB s) (sC s) _ (solve_p n solve Solve l (solid f) ip P1 P2 (Tp l))
    (fun i j _ _ => eq_refl) HC HK) as U.
  cbv zeta in U. cbn [solid Rm Tm Sm Rp Tp Sp] in U. rewrite mw_zero_l, mw_zero_r in U. unfold w, dface. cbn [fR fS]. lra.
Qed.
Ltac spread := unfold lweigh, fweigh; cbn [qa qb qc qt incRm incTm incSm incRp incTp incSp incR incS no_face fR fS Rm Tm Sm Rp Tp Sp];
  rewrite ?transp_mul, ?mul_add_r', ?mw_add_l, ?vw_add_l, ?vw_one, ?mw_zero_l, ?vw_zero_l, ?mul_assoc'.
Ltac zeros := repeat match goal with
  | H : meq n ?u ?u |- _ => clear H | H : veq n ?u ?u |- _ => clear H
  | H : meq n ?u zmat, U : _ = _ :> R |- _ => rewrite H in U; clear H | H : veq n ?u zvec, U : _ = _ :> R |- _ => rewrite H in U; clear H end.
Lemma ref_right : forall flag l1 s1 l2 s2, carried l1 s1 = true -> carried l2 s2 = true -> unread s1 l2 s2 = false ->
  within l1 s1 n x -> within_face l2 s2 n g -> balance (layer_add_ref_a n solve tsolve 1 (ref_code flag l1 s1 l2 s2) flag l f z).
Proof.
  intros flag l1 s1 l2 s2 H1 H2 H3 X Y. unfold balance, layer_add_ref_a. cbv zeta. fold s.
  destruct l1, s1, l2, s2; try discriminate H1; try discriminate H2; try discriminate H3; destruct flag.
  all: match goal with |- context [sel ?f ?c _ _] => let c' := eval vm_compute in c in change c with c' end.
  all: match goal with |- context [if ?c then _ else _] => idtac end; cbv [sel is negb andb orb Z.eqb Pos.eqb ADDING_U_U ADDING_U_S ADDING_U_L ADDING_U_B ADDING_S_U ADDING_S_S ADDING_S_L ADDING_S_B ADDING_L_U ADDING_L_S ADDING_L_L ADDING_L_B ADDING_B_U ADDING_B_S ADDING_B_L ADDING_B_B].
  all: unfold ref_u_p_a, ref_p_u_a, ref_p_p_a, ref_u_l_a, ref_l_u_a, ref_p_l_a, ref_l_p_a, ref_l_l_a; cbv zeta; fold c; fold E.
  all: destruct X as (X1 & X2 & X3 & X4 & X5 & X6), Y as [Y1 Y2]; cbn [flagged flagged_face Rm Tm Sm Rp Tp Sp fR fS] in *.
  all: pose proof ref_here as U; zeros; rewrite ?mw_zero_r, ?vw_zero_r in U.
  all: spread; lra.
Qed.
End Ref.
End Pair.
