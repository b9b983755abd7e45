(** The linearised routines against the derivatives of the combined operators. *)
From Coq Require Import Reals Bool Arith Lia Lra Setoid Morphisms Ncring Ncring_tac List ZArith.
From Verif Require Import Base DerivsModel DeltaMSpec DeltaMProofs BeamProofs AddingModel AddingSpec AddingMat AddingJoin AddingDeriv.
Open Scope R_scope.

Section Lin.
Variable n : nat.
Local Instance o : @Ring_ops mat zmat ident madd (mmul n) msub mneg (meq n) := mat_ops n.
Local Instance r : Ring (Ro := o) := mat_ring n.
Notation "a =~ b" := (meq n a b) (at level 70).
Notation "a ** b" := (mmul n a b) (at level 40, left associativity).
Notation "a +++ b" := (madd a b) (at level 50, left associativity).
Variable solve : mat -> mat -> mat.
Hypothesis Solve : solver n solve.
Notation join := (join n solve).

(** The derivative of [join 1 a b] when those of [a], [b] are [x], [y] *)
Definition djoin (a b x y : layer) : layer :=
  let m := i_sub (Rm b ** Rp a) in let A := solve m (Tp a) in
  let D := solve m (Tp x +++ A ** (Rm y ** Rp a +++ Rm b ** Rp x)) in
  let m' := i_sub (Rp a ** Rm b) in let A' := solve m' (Tm b) in
  let D' := solve m' (Tm y +++ A' ** (Rp x ** Rm b +++ Rp a ** Rm y)) in
  {| Rm := Rm x +++ A ** (Rm y ** Tm a +++ Rm b ** Tm x) +++ D ** (Rm b ** Tm a);
     Tm := D' ** Tm a +++ A' ** Tm x;
     Sm := vadd (vadd (Sm y) (mv n A' (vadd (Sm x) (vadd (mv n (Rp x) (Sp b)) (mv n (Rp a) (Sp y))))))
             (mv n D' (vadd (Sm a) (mv n (Rp a) (Sp b))));
     Rp := Rp y +++ A' ** (Rp x ** Tp b +++ Rp a ** Tp y) +++ D' ** (Rp a ** Tp b);
     Tp := D ** Tp b +++ A ** Tp y;
     Sp := vadd (vadd (Sp x) (mv n A (vadd (Sp y) (vadd (mv n (Rm y) (Sm a)) (mv n (Rm b) (Sm x))))))
             (mv n D (vadd (Sp b) (mv n (Rm b) (Sm a)))) |}.

Ltac cols := repeat (rewrite col_vadd || rewrite col_mv || rewrite col_one || rewrite col_none || rewrite col_zero).

Section Derivative.
Variables (F G : R -> layer) (p : R) (x y : layer) (ip iq : mat).
Hypotheses (DF : lderiv n F p x) (DG : lderiv n G p y).
Let a := F p. Let b := G p.
Hypotheses (P1 : msub ident (Rm b ** Rp a) ** ip =~ ident) (P2 : ip ** msub ident (Rm b ** Rp a) =~ ident).
Hypotheses (Q1 : msub ident (Rp a ** Rm b) ** iq =~ ident) (Q2 : iq ** msub ident (Rp a ** Rm b) =~ ident).
Let SP := solve_p n solve Solve a b ip P1 P2.
Let SQ := solve_q n solve Solve a b iq Q1 Q2.
Local Instance solve_p_proper : Proper (meq n ==> meq n) (solve (i_sub (Rm b ** Rp a))).
Proof. intros u v H. rewrite SP, SP. rewrite H. reflexivity. Qed.
Local Instance solve_q_proper : Proper (meq n ==> meq n) (solve (i_sub (Rp a ** Rm b))).
Proof. intros u v H. rewrite SQ, SQ. rewrite H. reflexivity. Qed.
Lemma join_deriv : lderiv n (fun t => join 1 (F t) (G t)) p (djoin a b x y).
Proof.
  destruct DF as (FRm & FTm & FSm & FRp & FTp & FSp). destruct DG as (GRm & GTm & GSm & GRp & GTp & GSp).
  assert (mderiv n (fun t => solve (i_sub (Rm (G t) ** Rp (F t))) (Tp (F t))) p
            (solve (i_sub (Rm b ** Rp a)) (Tp x +++ solve (i_sub (Rm b ** Rp a)) (Tp a) ** (Rm y ** Rp a +++ Rm b ** Rp x)))) as DA.
  { eapply mderiv_ext; [|apply (solve_deriv n solve Solve (fun t => i_sub (Rm (G t) ** Rp (F t))) (fun t => Tp (F t)) p ip);
      [fold a b; rewrite i_sub_is; exact P1|fold a b; rewrite i_sub_is; exact P2|apply mderiv_i_sub, mderiv_mul; eassumption|exact FTp]].
    fold a b. rewrite !SP. non_commutative_ring. }
  assert (mderiv n (fun t => solve (i_sub (Rp (F t) ** Rm (G t))) (Tm (G t))) p
            (solve (i_sub (Rp a ** Rm b)) (Tm y +++ solve (i_sub (Rp a ** Rm b)) (Tm b) ** (Rp x ** Rm b +++ Rp a ** Rm y)))) as DB.
  { eapply mderiv_ext; [|apply (solve_deriv n solve Solve (fun t => i_sub (Rp (F t) ** Rm (G t))) (fun t => Tm (G t)) p iq);
      [fold a b; rewrite i_sub_is; exact Q1|fold a b; rewrite i_sub_is; exact Q2|apply mderiv_i_sub, mderiv_mul; eassumption|exact GTm]].
    fold a b. rewrite !SQ. non_commutative_ring. }
  refine (conj _ (conj _ (conj _ (conj _ (conj _ _))))).
  - eapply mderiv_ext; [|apply mderiv_add; [exact FRm|apply mderiv_mul; [exact DA|apply mderiv_mul; eassumption]]].
    fold a b. cbn [djoin Rm]. non_commutative_ring.
  - eapply mderiv_ext; [|apply mderiv_mul; [exact DB|exact FTm]]. fold a b. cbn [djoin Tm]. non_commutative_ring.
  - apply vderiv_col. eapply mderiv_ext; [|apply vderiv_col; apply vderiv_add; [apply vderiv_scale; exact GSm|
      apply vderiv_mv; [exact DB|apply vderiv_add; [exact FSm|apply vderiv_scale, vderiv_mv; eassumption]]]].
    fold a b. cbn [djoin Sm]. cols. non_commutative_ring.
  - eapply mderiv_ext; [|apply mderiv_add; [exact GRp|apply mderiv_mul; [exact DB|apply mderiv_mul; eassumption]]].
    fold a b. cbn [djoin Rp]. non_commutative_ring.
  - eapply mderiv_ext; [|apply mderiv_mul; [exact DA|exact GTp]]. fold a b. cbn [djoin Tp]. non_commutative_ring.
  - apply vderiv_col. eapply mderiv_ext; [|apply vderiv_col; apply vderiv_add; [exact FSp|
      apply vderiv_mv; [exact DA|apply vderiv_add; [apply vderiv_scale; exact GSp|apply vderiv_mv; eassumption]]]].
    fold a b. cbn [djoin Sp]. cols. non_commutative_ring.
Qed.
End Derivative.

(* ------------------------------------------------------------------------- *)
(** One derivative of a call of layer_add_all with the results over the first layer *)
Definition slots (l m : layer) : lay := place m U23 U32 (place l U12 U21 blank).
Definition upwards (a b : layer) : mat * mat * vec :=
  let A := solve (i_sub (Rm b ** Rp a)) (Tp a) in (A, Rm b ** Tm a, vadd (vscale 1 (Sp b)) (mv n (Rm b) (Sm a))).
Definition downwards (a b : layer) : mat * mat * vec :=
  let A := solve (i_sub (Rp a ** Rm b)) (Tm b) in (A, Rp a ** Tp b, vadd (Sm a) (vscale 1 (mv n (Rp a) (Sp b)))).
Definition lin_step (code : Z) (a b x y : layer) : outcome layer :=
  let '(A, B, C) := upwards a b in
  match up_deriv n solve over_first code (i_sub (Rm b ** Rp a)) A B C (A ** Rm b) (slots a b) 1 0 (slots x y) with
  | Ok d =>
      let '(A, B, C) := downwards a b in
      match down_deriv n solve over_first code (i_sub (Rp a ** Rm b)) A B C (A ** Rp a) (slots a b) 1 0 d with
      | Ok d => Ok (pick U12 U21 d)
      | Err e => Err e
      | UB => UB
      end
  | Err e => Err e
  | UB => UB
  end.
(** The patterns the routines can handle: the sources of a layer that varies are flagged, and not (only the sources
    above and nothing in the layer). *)
Definition handled (l1 s1 l2 s2 : bool) : bool :=
  (negb l1 || s1) && (negb l2 || s2) && negb (negb l1 && s1 && negb l2 && negb s2).

Section Codes.
Variables (a b x y : layer) (ip iq : mat).
Hypotheses (P1 : msub ident (Rm b ** Rp a) ** ip =~ ident) (P2 : ip ** msub ident (Rm b ** Rp a) =~ ident).
Hypotheses (Q1 : msub ident (Rp a ** Rm b) ** iq =~ ident) (Q2 : iq ** msub ident (Rp a ** Rm b) =~ ident).
Let SP := solve_p n solve Solve a b ip P1 P2.
Let SQ := solve_q n solve Solve a b iq Q1 Q2.
Local Instance solve_p_proper' : Proper (meq n ==> meq n) (solve (i_sub (Rm b ** Rp a))).
Proof. intros u v H. rewrite SP, SP. rewrite H. reflexivity. Qed.
Local Instance solve_q_proper' : Proper (meq n ==> meq n) (solve (i_sub (Rp a ** Rm b))).
Proof. intros u v H. rewrite SQ, SQ. rewrite H. reflexivity. Qed.
Local Opaque mmul madd mv vadd vscale i_sub.
Ltac both := lazymatch goal with |- veq _ _ _ => apply veq_col | |- _ => idtac end; cols; rewrite ?SP, ?SQ; cols; rewrite ?SP, ?SQ; non_commutative_ring.
Ltac one_code := eexists; split;
  [cbv -[mmul madd mv vadd vscale i_sub zmat zvec Rm Tm Sm Rp Tp Sp]; reflexivity|];
  refine (conj _ (conj _ (conj _ (conj _ (conj _ _))))); cbn [flagged djoin pick Rm Tm Sm Rp Tp Sp orb]; both.
Lemma code_exact : forall l1 s1 l2 s2, handled l1 s1 l2 s2 = true -> exists z,
  lin_step (down_code l1 s1 l2 s2) a b x y = Ok z /\
  leq n (flagged (l1 || l2) (s1 || s2) z) (djoin a b (flagged l1 s1 x) (flagged l2 s2 y)).
Proof.
  intros [] [] [] [] H; try discriminate H; clear H.
  - one_code.
  - one_code.
  - one_code.
  - one_code.
  - one_code.
  - one_code.
  - one_code.
  - one_code.
Qed.
End Codes.

(* ------------------------------------------------------------------------- *)
(** One derivative of a call of layer_add_ref with the results over the face; [flag]: the layers are upside down and the
    code names the face first *)
Definition face_slots (l : layer) (f : face) : lay := put_face f (place l U12 U21 blank).
Definition ref_step (flag : bool) (code : Z) (l : layer) (f : face) (x : layer) (g : face) : outcome face :=
  let m := i_sub (fR f ** Rp l) in
  match ref_deriv n solve over_second flag code m (solve m (Tp l)) (fR f ** Tm l)
          (vadd (vscale 1 (fS f)) (mv n (fR f) (Sm l))) (face_slots l f) 1 0 (face_slots x g) with
  | Ok d => Ok (get_face d)
  | Err e => Err e
  | UB => UB
  end.
Definition dface (l : layer) (f : face) (x : layer) (g : face) : face :=
  let z := djoin l (solid f) x (solid g) in {| fR := Rm z; fS := Sp z |}.
Definition ref_code (flag l1 s1 l2 s2 : bool) : Z := if flag then down_code l2 s2 l1 s1 else down_code l1 s1 l2 s2.
Definition carried (l s : bool) : bool := negb l || s.

Section RefCodes.
Variables (l : layer) (f : face) (x : layer) (g : face) (ip : mat).
Hypotheses (P1 : msub ident (fR f ** Rp l) ** ip =~ ident) (P2 : ip ** msub ident (fR f ** Rp l) =~ ident).
Let SP : forall x, solve (i_sub (fR f ** Rp l)) x =~ x ** ip := solve_p n solve Solve l (solid f) ip P1 P2.
Local Instance solve_f_proper : Proper (meq n ==> meq n) (solve (i_sub (fR f ** Rp l))).
Proof. intros u v H. rewrite SP, SP. rewrite H. reflexivity. Qed.
Ltac both := lazymatch goal with |- veq _ _ _ => apply veq_col | |- _ => idtac end; cols; rewrite ?SP; cols; rewrite ?SP; non_commutative_ring.
Ltac one_code := eexists; split;
  [cbv -[mmul madd mv vadd vscale i_sub zmat zvec Rm Tm Sm Rp Tp Sp fR fS]; reflexivity|];
  refine (conj _ _); cbn [flagged_face flagged dface djoin get_face solid Rm Tm Sm Rp Tp Sp fR fS orb]; both.
Lemma ref_code_exact : forall flag l1 s1 l2 s2, carried l1 s1 = true -> carried l2 s2 = true -> exists z,
  ref_step flag (ref_code flag l1 s1 l2 s2) l f x g = Ok z /\
  feq n (flagged_face (l1 || l2) (s1 || s2) z) (dface l f (flagged l1 s1 x) (flagged_face l2 s2 g)).
Proof.
  intros [] [] [] [] [] H K; try discriminate H; try discriminate K; clear H K.
  all: one_code.
Qed.
End RefCodes.
End Lin.
