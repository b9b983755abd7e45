(** The values computed by adding, and the interaction principle. *)
From Coq Require Import Reals Bool Arith Lia Lra Setoid Morphisms Ncring Ncring_tac List ZArith.
From Verif Require Import Base DerivsModel DeltaMSpec DeltaMProofs AddingModel AddingSpec AddingMat.
Open Scope R_scope.

Section Join.
Variable n : nat.
Local Instance o : @Ring_ops mat zmat ident madd (mmul n) msub mneg (meq n) := mat_ops n.
Local Instance r : Ring (Ro := o) := mat_ring n.
Notation "a =~ b" := (meq n a b) (at level 70).
Notation "a ** b" := (mmul n a b) (at level 40, left associativity).
Notation "a +++ b" := (madd a b) (at level 50, left associativity).

(** Elimination, in the ring of matrices *)
Section Algebra.
Variables (Ra Ta Ra' Ta' Rb Tb Rb' Tb' p q Sa Sa' Sb Sb' d1 u3 : mat).
Let m := msub ident (Rb ** Ra').
Let w := msub ident (Ra' ** Rb).
Hypotheses (P1 : m ** p =~ ident) (P2 : p ** m =~ ident) (Q1 : w ** q =~ ident) (Q2 : q ** w =~ ident).
Let y := (Rb ** Ta) ** d1 +++ (Sb' +++ Rb ** Sa) +++ Tb' ** u3.
Let z := Ta ** d1 +++ (Sa +++ Ra' ** Sb') +++ (Ra' ** Tb') ** u3.
Lemma eliminated : forall u2 d2, d2 =~ Ta ** d1 +++ Ra' ** u2 +++ Sa -> u2 =~ Rb ** d2 +++ Tb' ** u3 +++ Sb' ->
  u2 =~ p ** y /\ d2 =~ q ** z.
Proof.
  intros u2 d2 H K. split.
  - transitivity ((p ** m) ** u2); [rewrite P2; non_commutative_ring|].
    transitivity (p ** (m ** u2)); [non_commutative_ring|].
    assert (m ** u2 =~ y) as ->; [|reflexivity].
    transitivity (msub u2 (Rb ** (Ra' ** u2))); [unfold m; non_commutative_ring|].
    transitivity (msub (Rb ** d2 +++ Tb' ** u3 +++ Sb') (Rb ** (Ra' ** u2))); [rewrite <- K; reflexivity|].
    rewrite H. unfold y. non_commutative_ring.
  - transitivity ((q ** w) ** d2); [rewrite Q2; non_commutative_ring|].
    transitivity (q ** (w ** d2)); [non_commutative_ring|].
    assert (w ** d2 =~ z) as ->; [|reflexivity].
    transitivity (msub d2 (Ra' ** (Rb ** d2))); [unfold w; non_commutative_ring|].
    transitivity (msub (Ta ** d1 +++ Ra' ** u2 +++ Sa) (Ra' ** (Rb ** d2))); [rewrite <- H; reflexivity|].
    rewrite K. unfold z. non_commutative_ring.
Qed.
Lemma between : let u2 := p ** y in let d2 := Ta ** d1 +++ Ra' ** u2 +++ Sa in u2 =~ Rb ** d2 +++ Tb' ** u3 +++ Sb'.
Proof.
  cbv zeta. transitivity (p ** y +++ msub y ((m ** p) ** y)); [rewrite P1; non_commutative_ring|].
  unfold m, y. non_commutative_ring.
Qed.
End Algebra.

Variable solve : mat -> mat -> mat.
Hypothesis Solve : solver n solve.

(** A layer whose sources are scaled *)
Definition scaled (t : R) (l : layer) : layer :=
  {| Rm := Rm l; Tm := Tm l; Sm := vscale t (Sm l); Rp := Rp l; Tp := Tp l; Sp := vscale t (Sp l) |}.
(** What the calls compute, in the order of the source *)
Definition join (t : R) (a b : layer) : layer :=
  let A := solve (i_sub (Rm b ** Rp a)) (Tp a) in
  let A' := solve (i_sub (Rp a ** Rm b)) (Tm b) in
  {| Rm := Rm a +++ A ** (Rm b ** Tm a); Tm := A' ** Tm a;
     Sm := vadd (vscale t (Sm b)) (mv n A' (vadd (Sm a) (vscale t (mv n (Rp a) (Sp b)))));
     Rp := Rp b +++ A' ** (Rp a ** Tp b); Tp := A ** Tp b;
     Sp := vadd (Sp a) (mv n A (vadd (vscale t (Sp b)) (mv n (Rm b) (Sm a)))) |}.
Definition join_face (l : layer) (f : face) : face :=
  let A := solve (i_sub (fR f ** Rp l)) (Tp l) in
  {| fR := Rm l +++ A ** (fR f ** Tm l); fS := vadd (Sp l) (mv n A (vadd (vscale 1 (fS f)) (mv n (fR f) (Sm l)))) |}.

Lemma regular_inverse : forall a b, regular n a b -> exists p,
  msub ident (a ** b) ** p =~ ident /\ p ** msub ident (a ** b) =~ ident.
Proof. intros a b (p & H & K). exists p. split; assumption. Qed.

Lemma interacts_col : forall l d1 u2 u1 d2, interacts n l d1 u2 u1 d2 <->
  col u1 =~ Rm l ** col d1 +++ Tp l ** col u2 +++ col (Sp l) /\ col d2 =~ Tm l ** col d1 +++ Rp l ** col u2 +++ col (Sm l).
Proof.
  intros l d1 u2 u1 d2. split.
  - intros H. split; intros i j Hi _; apply (H i Hi).
  - intros [H K] i Hi. split; [exact (H i i Hi Hi)|exact (K i i Hi Hi)].
Qed.

(** The combined operators in terms of the inverses *)
Section Explicit.
Variables (t : R) (a b : layer) (p q : mat).
Hypotheses (P1 : msub ident (Rm b ** Rp a) ** p =~ ident) (P2 : p ** msub ident (Rm b ** Rp a) =~ ident).
Hypotheses (Q1 : msub ident (Rp a ** Rm b) ** q =~ ident) (Q2 : q ** msub ident (Rp a ** Rm b) =~ ident).
Let c := join t a b.
Lemma solve_p : forall x, solve (i_sub (Rm b ** Rp a)) x =~ x ** p.
Proof. intros x. apply solve_mul; [exact Solve|rewrite i_sub_is; exact P1|rewrite i_sub_is; exact P2]. Qed.
Lemma solve_q : forall x, solve (i_sub (Rp a ** Rm b)) x =~ x ** q.
Proof. intros x. apply solve_mul; [exact Solve|rewrite i_sub_is; exact Q1|rewrite i_sub_is; exact Q2]. Qed.
Lemma col_scale_mv : forall s m v, col (vscale s (mv n m v)) =~ m ** col (vscale s v).
Proof. intros s m v i j _ _. unfold col, vscale, mv, mmul. rewrite <- total_scale. apply total_ext. intros. ring. Qed.
Lemma join_explicit :
  Rm c =~ Rm a +++ Tp a ** p ** (Rm b ** Tm a) /\ Tm c =~ Tm b ** q ** Tm a /\
  col (Sm c) =~ col (vscale t (Sm b)) +++ Tm b ** q ** (col (Sm a) +++ Rp a ** col (vscale t (Sp b))) /\
  Rp c =~ Rp b +++ Tm b ** q ** (Rp a ** Tp b) /\ Tp c =~ Tp a ** p ** Tp b /\
  col (Sp c) =~ col (Sp a) +++ Tp a ** p ** (col (vscale t (Sp b)) +++ Rm b ** col (Sm a)).
Proof.
  unfold c, join. cbn [Rm Tm Sm Rp Tp Sp].
  repeat apply conj; rewrite ?col_vadd, ?col_mv, ?col_vadd, ?col_mv, ?col_scale_mv, ?solve_p, ?solve_q; reflexivity.
Qed.
Lemma join_joins : joins n a (scaled t b) c.
Proof.
  destruct join_explicit as (E1 & E2 & E3 & E4 & E5 & E6).
  intros d1 u3 u1 d3. rewrite interacts_col. unfold joined.
  pose (y := (Rm b ** Tm a) ** col d1 +++ (col (vscale t (Sp b)) +++ Rm b ** col (Sm a)) +++ Tp b ** col u3).
  pose (z := Tm a ** col d1 +++ (col (Sm a) +++ Rp a ** col (vscale t (Sp b))) +++ (Rp a ** Tp b) ** col u3).
  assert (Rm c ** col d1 +++ Tp c ** col u3 +++ col (Sp c) =~ Rm a ** col d1 +++ Tp a ** (p ** y) +++ col (Sp a)) as F1.
  { rewrite E1, E5, E6. unfold y. non_commutative_ring. }
  assert (Tm c ** col d1 +++ Rp c ** col u3 +++ col (Sm c) =~ Tm b ** (q ** z) +++ Rp b ** col u3 +++ col (vscale t (Sm b))) as F2.
  { rewrite E2, E4, E3. unfold z. non_commutative_ring. }
  rewrite F1, F2. split.
  - intros [H K].
    pose (yv := vadd (vadd (mv n (Rm b ** Tm a) d1) (vadd (vscale t (Sp b)) (mv n (Rm b) (Sm a)))) (mv n (Tp b) u3)).
    pose (u2 := mv n p yv). pose (d2 := vadd (vadd (mv n (Tm a) d1) (mv n (Rp a) u2)) (Sm a)).
    assert (col u2 =~ p ** y) as U by reflexivity.
    assert (col d2 =~ Tm a ** col d1 +++ Rp a ** col u2 +++ col (Sm a)) as V by reflexivity.
    assert (col u2 =~ Rm b ** col d2 +++ Tp b ** col u3 +++ col (vscale t (Sp b))) as W.
    { rewrite V, U. apply between. exact P1. }
    exists d2, u2. rewrite !interacts_col. cbn [scaled Rm Tm Sm Rp Tp Sp].
    refine (conj (conj _ V) (conj W _)); [rewrite U; exact H|].
    destruct (eliminated (Tm a) (Rp a) (Rm b) (Tp b) p q (col (Sm a)) (col (vscale t (Sp b))) (col d1) (col u3) P2 Q2 _ _ V W) as [_ X].
    rewrite X. exact K.
  - intros (d2 & u2 & H). rewrite !interacts_col in H. cbn [scaled Rm Tm Sm Rp Tp Sp] in H.
    destruct H as [[H1 H2] [H3 H4]].
    destruct (eliminated (Tm a) (Rp a) (Rm b) (Tp b) p q (col (Sm a)) (col (vscale t (Sp b))) (col d1) (col u3) P2 Q2 _ _ H2 H3) as [X Y].
    split; [rewrite H1, X; reflexivity|rewrite H4, Y; reflexivity].
Qed.
End Explicit.

Lemma regular_sym : forall x y, regular n x y -> regular n y x.
Proof.
  intros x y H. destruct (regular_inverse x y H) as (p & P1 & P2).
  destruct (push_through n x y p P1 P2) as [Q1 Q2]. eexists. split; [exact Q1|exact Q2].
Qed.
Lemma join_sound : forall t a b, regular n (Rm b) (Rp a) -> joins n a (scaled t b) (join t a b).
Proof.
  intros t a b H. destruct (regular_inverse _ _ H) as (p & P1 & P2).
  destruct (push_through n _ _ p P1 P2) as [Q1 Q2]. exact (join_joins t a b p _ P1 P2 Q1 Q2).
Qed.
End Join.

(** The operators are determined by what they do. *)
Section Unique.
Variable n : nat.
Definition unit_vec (k : nat) : vec := fun i => if Nat.eqb i k then 1 else 0.
Lemma dot_zero : forall a i, dot n a i zvec = 0.
Proof. intros. apply total_zero. intros. unfold zvec. ring. Qed.
Lemma dot_unit : forall a i k, (k < n)%nat -> dot n a i (unit_vec k) = a i k.
Proof.
  intros a i k Hk. unfold dot, unit_vec. rewrite (total_one n k); [rewrite Nat.eqb_refl; ring|exact Hk|].
  intros j _ Nj. destruct (Nat.eqb_spec j k); [congruence|ring].
Qed.
Definition out_up (l : layer) (d1 u2 : vec) : vec := fun i => dot n (Rm l) i d1 + dot n (Tp l) i u2 + Sp l i.
Definition out_down (l : layer) (d1 u2 : vec) : vec := fun i => dot n (Tm l) i d1 + dot n (Rp l) i u2 + Sm l i.
Lemma interacts_out : forall l d1 u2, interacts n l d1 u2 (out_up l d1 u2) (out_down l d1 u2).
Proof. intros l d1 u2 i _. split; reflexivity. Qed.
Lemma determined : forall a b, (forall d1 u2 u1 d2, interacts n a d1 u2 u1 d2 -> interacts n b d1 u2 u1 d2) -> leq n a b.
Proof.
  intros a b H.
  assert (forall d1 u2 i, (i < n)%nat -> dot n (Rm a) i d1 + dot n (Tp a) i u2 + Sp a i = dot n (Rm b) i d1 + dot n (Tp b) i u2 + Sp b i /\
    dot n (Tm a) i d1 + dot n (Rp a) i u2 + Sm a i = dot n (Tm b) i d1 + dot n (Rp b) i u2 + Sm b i) as E.
  { intros d1 u2 i Hi. exact (H d1 u2 _ _ (interacts_out a d1 u2) i Hi). }
  assert (forall i, (i < n)%nat -> Sp a i = Sp b i /\ Sm a i = Sm b i) as Z.
  { intros i Hi. specialize (E zvec zvec i Hi). rewrite !dot_zero in E. lra. }
  assert (forall i k, (i < n)%nat -> (k < n)%nat -> Rm a i k = Rm b i k /\ Tm a i k = Tm b i k) as D.
  { intros i k Hi Hk. specialize (E (unit_vec k) zvec i Hi). rewrite !dot_zero, !dot_unit in E by exact Hk.
    destruct (Z i Hi). lra. }
  assert (forall i k, (i < n)%nat -> (k < n)%nat -> Tp a i k = Tp b i k /\ Rp a i k = Rp b i k) as F.
  { intros i k Hi Hk. specialize (E zvec (unit_vec k) i Hi). rewrite !dot_zero, !dot_unit in E by exact Hk.
    destruct (Z i Hi). lra. }
  refine (conj _ (conj _ (conj _ (conj _ (conj _ _))))).
  - intros i j Hi Hj. apply D; assumption.
  - intros i j Hi Hj. apply D; assumption.
  - intros i Hi. apply Z; assumption.
  - intros i j Hi Hj. apply F; assumption.
  - intros i j Hi Hj. apply F; assumption.
  - intros i Hi. apply Z; assumption.
Qed.
Lemma determined_face : forall f g, (forall d u, reflects n f d u -> reflects n g d u) -> feq n f g.
Proof.
  intros f g H.
  assert (forall d i, (i < n)%nat -> dot n (fR f) i d + fS f i = dot n (fR g) i d + fS g i) as E.
  { intros d i Hi. exact (H d (fun i => dot n (fR f) i d + fS f i) (fun i _ => eq_refl) i Hi). }
  assert (forall i, (i < n)%nat -> fS f i = fS g i) as Z.
  { intros i Hi. specialize (E zvec i Hi). rewrite !dot_zero in E. lra. }
  split; [|exact Z]. intros i j Hi Hj. specialize (E (unit_vec j) i Hi). rewrite !dot_unit in E by exact Hj.
  rewrite (Z i Hi) in E. lra.
Qed.
Lemma joins_unique : forall a b c c', joins n a b c -> joins n a b c' -> leq n c c'.
Proof. intros a b c c' H K. apply determined. intros d1 u2 u1 d2 X. apply K, H, X. Qed.
(** Grouping *)
Lemma joins_assoc : forall a b c ab bc l r, joins n a b ab -> joins n ab c l -> joins n b c bc -> joins n a bc r -> leq n l r.
Proof.
  intros a b c ab bc l r AB L BC Rr. apply determined. intros d1 u4 u1 d4 X.
  apply L in X. destruct X as (d3 & u3 & X & Y). apply AB in X. destruct X as (d2 & u2 & X & Z).
  apply Rr. exists d2, u2. split; [exact X|]. apply BC. exists d3, u3. split; assumption.
Qed.
Lemma scaled_one : forall l d1 u2 u1 d2, interacts n (scaled 1 l) d1 u2 u1 d2 <-> interacts n l d1 u2 u1 d2.
Proof.
  intros l d1 u2 u1 d2. split; intros H i Hi; destruct (H i Hi) as [X Y]; cbn [scaled Rm Tm Sm Rp Tp Sp] in *;
    unfold vscale in *; split; lra.
Qed.
Lemma joins_one : forall a b c, joins n a (scaled 1 b) c -> joins n a b c.
Proof.
  intros a b c H d1 u3 u1 d3. rewrite (H d1 u3 u1 d3). unfold joined.
  split; intros (d2 & u2 & X & Y); exists d2, u2; (split; [exact X|]); apply scaled_one; exact Y.
Qed.

(** A face as a layer that lets nothing through *)
Definition solid (f : face) : layer := {| Rm := fR f; Tm := zmat; Sm := zvec; Rp := zmat; Tp := zmat; Sp := fS f |}.
Lemma dot_zmat : forall i v, dot n zmat i v = 0.
Proof. intros. apply total_zero. intros. unfold zmat. ring. Qed.
Lemma solid_reflects : forall f d u, reflects n f d u <-> interacts n (solid f) d zvec u zvec.
Proof.
  intros f d u. split; intros H i Hi; specialize (H i Hi); cbn [solid Rm Tm Sm Rp Tp Sp] in *; rewrite ?dot_zmat in *;
    unfold zvec in *; [split; lra|lra].
Qed.
Lemma join_face_is : forall solve l f,
  fR (join_face n solve l f) = Rm (join n solve 1 l (solid f)) /\ fS (join_face n solve l f) = Sp (join n solve 1 l (solid f)).
Proof. intros. split; reflexivity. Qed.
Lemma join_face_sound : forall solve l f, solver n solve -> regular n (fR f) (Rp l) -> forall d u,
  reflects n (join_face n solve l f) d u <-> exists d2 u2, interacts n l d u2 u d2 /\ reflects n f d2 u2.
Proof.
  intros solve l f Sv G d u.
  pose proof (joins_one _ _ _ (join_sound n solve Sv 1 l (solid f) G)) as J.
  pose (c := join n solve 1 l (solid f)).
  assert (reflects n (join_face n solve l f) d u <-> interacts n c d zvec u (out_down c d zvec)) as ->.
  { split; intros H i Hi; specialize (H i Hi).
    - split; [|reflexivity]. rewrite dot_zero. cbn [join_face fR fS] in H. unfold c. cbn [join Rm Sp solid]. lra.
    - destruct H as [H _]. rewrite dot_zero in H. cbn [join_face fR fS]. unfold c in H. cbn [join Rm Sp solid] in H. lra. }
  pose proof (J d zvec u (out_down c d zvec)) as J'. fold c in J'. rewrite J'. unfold joined. split.
  - intros (d2 & u2 & X & Y). exists d2, u2. split; [exact X|]. intros i Hi. destruct (Y i Hi) as [Z _].
    cbn [solid Rm Tp Sp] in Z. rewrite dot_zmat in Z. lra.
  - intros (d2 & u2 & X & Y). exists d2, u2. split; [exact X|]. apply solid_reflects in Y.
    assert (interacts n c d zvec u zvec) as K by (apply J; exists d2, u2; split; assumption).
    intros i Hi. destruct (Y i Hi) as [Y1 Y2]. split; [exact Y1|].
    destruct (K i Hi) as [_ K2]. rewrite <- Y2. symmetry. exact K2.
Qed.
End Unique.
