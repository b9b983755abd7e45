(** Doubling is joining a layer to a shifted copy of itself. *)
From Coq Require Import Reals Bool Arith Lia Lra Setoid Morphisms Ncring Ncring_tac List ZArith.
From Verif Require Import Base DerivsModel DeltaMSpec DeltaMProofs BeamProofs AddingModel AddingSpec AddingMat AddingJoin AddingDeriv AddingLin AddingCalls
  DoublingModel DoublingSpec.
Open Scope R_scope.

Section Piles.
Variable n : nat.

Lemma interacts_veq : forall l l' d u a b d' u' a' b', leq n l l' -> veq n d d' -> veq n u u' -> veq n a a' -> veq n b b' ->
  interacts n l d u a b -> interacts n l' d' u' a' b'.
Proof.
  intros l l' d u a b d' u' a' b' (E1 & E2 & E3 & E4 & E5 & E6) D U A B H i Hi. destruct (H i Hi) as [X Y].
  assert (forall m m' v v', meq n m m' -> veq n v v' -> dot n m i v = dot n m' i v') as K.
  { intros m m' v v' M V. apply total_ext. intros k Hk. rewrite (M i k Hi Hk), (V k Hk). reflexivity. }
  rewrite <- (A i Hi), <- (B i Hi), <- (E6 i Hi), <- (E3 i Hi), X, Y.
  rewrite (K _ _ _ _ E1 D), (K _ _ _ _ E5 U), (K _ _ _ _ E2 D), (K _ _ _ _ E4 U). split; reflexivity.
Qed.
Lemma leq_refl : forall l, leq n l l.
Proof. intros l. refine (conj _ (conj _ (conj _ (conj _ (conj _ _))))); first [intros i j _ _; reflexivity|intros i _; reflexivity]. Qed.
Lemma leq_trans : forall a b c, leq n a b -> leq n b c -> leq n a c.
Proof.
  intros a b c (A1 & A2 & A3 & A4 & A5 & A6) (B1 & B2 & B3 & B4 & B5 & B6).
  refine (conj _ (conj _ (conj _ (conj _ (conj _ _))))); first [etransitivity; eassumption].
Qed.
Lemma through_veq : forall m ls ls' d u a b d' u' a' b', (forall k, (k <= m)%nat -> leq n (ls k) (ls' k)) ->
  veq n d d' -> veq n u u' -> veq n a a' -> veq n b b' -> through n m ls d u a b -> through n m ls' d' u' a' b'.
Proof.
  induction m as [|m IH]; intros ls ls' d u a b d' u' a' b' E D U A B H; cbn [through] in *.
  - eapply interacts_veq; try eassumption. apply E. lia.
  - destruct H as (x & y & H & K). exists x, y. split.
    + eapply IH; try eassumption; try reflexivity. intros. apply E. lia.
    + eapply interacts_veq; try eassumption; try reflexivity. apply E. lia.
Qed.
Lemma through_leq : forall m ls ls' d u a b, (forall k, (k <= m)%nat -> leq n (ls k) (ls' k)) -> through n m ls d u a b -> through n m ls' d u a b.
Proof. intros. eapply through_veq; try eassumption; reflexivity. Qed.
Lemma stands_leq : forall m ls ls' c c', (forall k, (k <= m)%nat -> leq n (ls k) (ls' k)) -> leq n c c' -> stands_for n m ls c -> stands_for n m ls' c'.
Proof.
  intros m ls ls' c c' E F H d u a b. split; intros K.
  - eapply through_leq; [exact E|]. apply H. eapply interacts_veq; try exact K; try reflexivity. apply leq_sym, F.
  - assert (through n m ls d u a b) as K' by (eapply through_leq; [intros k Hk; apply leq_sym, E, Hk|exact K]).
    apply H in K'. eapply interacts_veq; try exact K'; try reflexivity. exact F.
Qed.
Lemma stands_unique : forall m ls c c', stands_for n m ls c -> stands_for n m ls c' -> leq n c c'.
Proof. intros m ls c c' H K. apply determined. intros. apply K, H. assumption. Qed.
(** Two piles on top of each other *)
Lemma through_app : forall l m ls d u a b, through n (m + S l) ls d u a b <->
  exists x y, through n m ls d y a x /\ through n l (fun k => ls (S m + k)%nat) x u y b.
Proof.
  induction l as [|l IH]; intros m ls d u a b.
  - replace (m + 1)%nat with (S m) by lia. cbn [through]. rewrite Nat.add_0_r. reflexivity.
  - replace (m + S (S l))%nat with (S (m + S l)) by lia. cbn [through]. split.
    + intros (x & y & H & K). apply IH in H. destruct H as (x' & y' & H1 & H2). exists x', y'. split; [exact H1|].
      exists x, y. split; [exact H2|]. replace (S m + S l)%nat with (S (m + S l)) by lia. exact K.
    + intros (x' & y' & H1 & x & y & H2 & K). exists x, y. split; [apply IH; exists x', y'; split; assumption|].
      replace (S m + S l)%nat with (S (m + S l)) in K by lia. exact K.
Qed.
Lemma stands_app : forall l m ls a b c, stands_for n m ls a -> stands_for n l (fun k => ls (S m + k)%nat) b -> joins n a b c -> stands_for n (m + S l) ls c.
Proof.
  intros l m ls a b c A B J d u x y. rewrite (J d u x y), through_app. unfold joined.
  split; intros (p & q & H & K); exists p, q; (split; [apply A, H|apply B, K]).
Qed.

(** Sources superpose. *)
Definition comb (t : R) (a b : layer) : layer :=
  {| Rm := Rm a; Tm := Tm a; Sm := vadd (Sm a) (vscale t (Sm b)); Rp := Rp a; Tp := Tp a; Sp := vadd (Sp a) (vscale t (Sp b)) |}.
Definition same_ops (a b : layer) : Prop := meq n (Rm a) (Rm b) /\ meq n (Tm a) (Tm b) /\ meq n (Rp a) (Rp b) /\ meq n (Tp a) (Tp b).
Lemma dot_comb : forall m m' i u v t, meq n m m' -> (i < n)%nat -> dot n m i (vadd u (vscale t v)) = dot n m i u + t * dot n m' i v.
Proof.
  intros m m' i u v t E Hi. unfold dot. rewrite <- total_scale, <- total_plus. apply total_ext. intros k Hk.
  rewrite <- (E i k Hi Hk). unfold vadd, vscale. ring.
Qed.
Lemma interacts_comb : forall t l l' d u a b d' u' a' b', same_ops l l' -> interacts n l d u a b -> interacts n l' d' u' a' b' ->
  interacts n (comb t l l') (vadd d (vscale t d')) (vadd u (vscale t u')) (vadd a (vscale t a')) (vadd b (vscale t b')).
Proof.
  intros t l l' d u a b d' u' a' b' (E1 & E2 & E3 & E4) H K i Hi. destruct (H i Hi) as [X Y]. destruct (K i Hi) as [Z W].
  cbn [comb Rm Tm Sm Rp Tp Sp]. rewrite (dot_comb _ _ i _ _ _ E1 Hi), (dot_comb _ _ i _ _ _ E2 Hi), (dot_comb _ _ i _ _ _ E3 Hi), (dot_comb _ _ i _ _ _ E4 Hi).
  unfold vadd, vscale. rewrite X, Y, Z, W. split; ring.
Qed.
Lemma through_comb : forall m t ls ls' d u a b d' u' a' b', (forall k, same_ops (ls k) (ls' k)) -> through n m ls d u a b -> through n m ls' d' u' a' b' ->
  through n m (fun k => comb t (ls k) (ls' k)) (vadd d (vscale t d')) (vadd u (vscale t u')) (vadd a (vscale t a')) (vadd b (vscale t b')).
Proof.
  induction m as [|m IH]; intros t ls ls' d u a b d' u' a' b' E H K; cbn [through] in *.
  - apply interacts_comb; auto.
  - destruct H as (x & y & H1 & H2). destruct K as (x' & y' & K1 & K2).
    exists (vadd x (vscale t x')), (vadd y (vscale t y')). split; [apply IH; auto|apply interacts_comb; auto].
Qed.
Lemma stands_comb : forall m t ls ls' c c', (forall k, same_ops (ls k) (ls' k)) -> same_ops c c' ->
  stands_for n m ls c -> stands_for n m ls' c' -> stands_for n m (fun k => comb t (ls k) (ls' k)) (comb t c c').
Proof.
  intros m t ls ls' c c' E F A B d u a b.
  assert (forall v w, veq n (vadd (vadd v (vscale t w)) (vscale (- t) w)) v) as C1 by (intros v w i _; unfold vadd, vscale; ring).
  assert (forall v w, veq n (vadd (vadd v (vscale (- t) w)) (vscale t w)) v) as C2 by (intros v w i _; unfold vadd, vscale; ring).
  assert (forall v s, veq n (vadd v (vscale s zvec)) v) as C3 by (intros v s i _; unfold vadd, vscale, zvec; ring).
  pose (a0 := out_up n c' zvec zvec). pose (b0 := out_down n c' zvec zvec).
  pose proof (interacts_out n c' zvec zvec) as I0. fold a0 b0 in I0.
  assert (through n m ls' zvec zvec a0 b0) as T0 by (apply B; exact I0).
  assert (forall l l' s, leq n (comb (- s) (comb s l l') l') l) as C4.
  { intros l l' s. refine (conj _ (conj _ (conj _ (conj _ (conj _ _))))); first [intros i j _ _; reflexivity|intros i _; cbn; unfold vadd, vscale; ring]. }
  assert (forall l l' s, same_ops l l' -> same_ops (comb s l l') l') as C5 by (intros l l' s (?&?&?&?); refine (conj _ (conj _ (conj _ _))); assumption).
  split; intros H.
  - pose proof (interacts_comb (- t) (comb t c c') c' _ _ _ _ _ _ _ _ (C5 _ _ _ F) H I0) as H1.
    assert (interacts n c d u (vadd a (vscale (- t) a0)) (vadd b (vscale (- t) b0))) as H2 by (eapply interacts_veq; try exact H1; try apply C3; try reflexivity; apply C4).
    apply A in H2. pose proof (through_comb m t ls ls' _ _ _ _ _ _ _ _ E H2 T0) as H3.
    eapply through_veq; try exact H3; try apply C3; try apply C2. intros. apply leq_refl.
  - pose proof (through_comb m (- t) (fun k => comb t (ls k) (ls' k)) ls' _ _ _ _ _ _ _ _ (fun k => C5 _ _ _ (E k)) H T0) as H1.
    assert (through n m ls d u (vadd a (vscale (- t) a0)) (vadd b (vscale (- t) b0))) as H2.
    { eapply through_veq; try exact H1; try apply C3; try reflexivity. intros. apply C4. }
    apply A in H2. pose proof (interacts_comb t c c' _ _ _ _ _ _ _ _ F H2 I0) as H3.
    eapply interacts_veq; try exact H3; try apply C3; try apply C2. apply leq_refl.
Qed.
Lemma same_refl : forall l, same_ops l l.
Proof. intros. refine (conj _ (conj _ (conj _ _))); reflexivity. Qed.
(** The same pile with all sources scaled, or without sources *)
Lemma stands_scaled : forall m t ls c, stands_for n m ls c -> stands_for n m (fun k => scaled t (ls k)) (scaled t c).
Proof.
  intros m t ls c H. pose proof (stands_comb m (t - 1) ls ls c c (fun k => same_refl _) (same_refl _) H H) as K.
  assert (forall l, leq n (comb (t - 1) l l) (scaled t l)) as E.
  { intros l. refine (conj _ (conj _ (conj _ (conj _ (conj _ _))))); first [intros i j _ _; reflexivity|intros i _; cbn; unfold vadd, vscale; ring]. }
  eapply stands_leq; [intros k _; apply E|apply E|exact K].
Qed.
Definition bare (l : layer) : layer := {| Rm := Rm l; Tm := Tm l; Sm := zvec; Rp := Rp l; Tp := Tp l; Sp := zvec |}.
Lemma stands_bare : forall m ls c, stands_for n m ls c -> stands_for n m (fun k => bare (ls k)) (bare c).
Proof.
  intros m ls c H. pose proof (stands_scaled m 0 ls c H) as K.
  assert (forall l, leq n (scaled 0 l) (bare l)) as E.
  { intros l. refine (conj _ (conj _ (conj _ (conj _ (conj _ _))))); first [intros i j _ _; reflexivity|intros i _; cbn; unfold vscale, zvec; ring]. }
  eapply stands_leq; [intros k _; apply E|apply E|exact K].
Qed.

(** Turning the downward radiances' third and fourth component round *)
Section Turn.
Variable s : nat -> R.
Hypothesis Square : forall k, s k * s k = 1.
Definition tv (v : vec) : vec := fun i => s i * v i.
Definition turn (l : layer) : layer :=
  {| Rm := fun i j => Rm l i j * s j; Tm := fun i j => s i * Tm l i j * s j; Sm := tv (Sm l);
     Rp := fun i j => s i * Rp l i j; Tp := Tp l; Sp := Sp l |}.
Lemma tv_tv : forall v, veq n (tv (tv v)) v.
Proof. intros v i _. unfold tv. rewrite <- Rmult_assoc, Square. ring. Qed.
Lemma s_inj : forall k x y, s k * x = s k * y -> x = y.
Proof. intros k x y H. apply (f_equal (Rmult (s k))) in H. rewrite <- !Rmult_assoc, Square in H. lra. Qed.
Lemma interacts_turn : forall l d u a b, interacts n (turn l) d u a b <-> interacts n l (tv d) u a (tv b).
Proof.
  intros l d u a b.
  assert (forall m i v, dot n (fun i j => m i j * s j) i v = dot n m i (tv v)) as E1 by (intros; apply total_ext; intros; unfold tv; ring).
  assert (forall m i v, dot n (fun i j => s i * m i j * s j) i v = s i * dot n m i (tv v)) as E2.
  { intros. unfold dot. rewrite <- total_scale. apply total_ext. intros. unfold tv. ring. }
  assert (forall m i v, dot n (fun i j => s i * m i j) i v = s i * dot n m i v) as E3.
  { intros. unfold dot. rewrite <- total_scale. apply total_ext. intros. ring. }
  split; intros H i Hi; destruct (H i Hi) as [X Y]; cbn [turn Rm Tm Sm Rp Tp Sp] in *; rewrite ?E1, ?E2, ?E3 in *; (split; [exact X|]).
  - apply (s_inj i). unfold tv in *. rewrite Y. rewrite <- Rmult_assoc, Square. ring.
  - apply (s_inj i). unfold tv in *. rewrite Y. rewrite !Rmult_plus_distr_l, <- !Rmult_assoc, Square. ring.
Qed.
Lemma through_turn : forall m ls d u a b, through n m (fun k => turn (ls k)) d u a b <-> through n m ls (tv d) u a (tv b).
Proof.
  induction m as [|m IH]; intros ls d u a b; cbn [through]; [apply interacts_turn|]. split.
  - intros (x & y & H & K). exists (tv x), y. split; [apply IH, H|apply interacts_turn, K].
  - intros (x & y & H & K). exists (tv x), y. split; [|apply interacts_turn].
    + apply IH. eapply through_veq; try exact H; try reflexivity; [intros; apply leq_refl|]. symmetry. apply tv_tv.
    + eapply interacts_veq; try exact K; try reflexivity; [apply leq_refl|]. symmetry. apply tv_tv.
Qed.
Lemma stands_turn : forall m ls c, stands_for n m ls c <-> stands_for n m (fun k => turn (ls k)) (turn c).
Proof.
  intros m ls c. split; intros H d u a b.
  - rewrite interacts_turn, through_turn. apply H.
  - specialize (H (tv d) u a (tv b)). rewrite interacts_turn, through_turn in H. split; intros K.
    + eapply through_veq; [intros; apply leq_refl|apply tv_tv| | |apply tv_tv|apply H]; try reflexivity.
      eapply interacts_veq; try exact K; try reflexivity; [apply leq_refl| |]; symmetry; apply tv_tv.
    + eapply interacts_veq; [apply leq_refl|apply tv_tv| | |apply tv_tv|apply H]; try reflexivity.
      eapply through_veq; try exact K; try reflexivity; [intros; apply leq_refl| |]; symmetry; apply tv_tv.
Qed.
Lemma lderiv_turn : forall F p x, lderiv n F p x -> lderiv n (fun t => turn (F t)) p (turn x).
Proof.
  intros F p x (A1 & A2 & A3 & A4 & A5 & A6).
  refine (conj _ (conj _ (conj _ (conj _ (conj A5 A6))))); cbn [turn Rm Tm Sm Rp].
  - intros i j Hi Hj. eapply dl_eq; [apply dl_mult; [apply A1; assumption|apply dl_const]|cbv beta; ring].
  - intros i j Hi Hj. eapply dl_eq; [apply dl_mult; [apply dl_mult; [apply dl_const|apply A2; assumption]|apply dl_const]|cbv beta; ring].
  - intros i Hi. unfold tv. eapply dl_eq; [apply dl_mult; [apply dl_const|apply A3; assumption]|cbv beta; ring].
  - intros i j Hi Hj. eapply dl_eq; [apply dl_mult; [apply dl_const|apply A4; assumption]|cbv beta; ring].
Qed.
End Turn.

(** Families that agree near a point *)
Lemma around_here : forall p P, around p P -> P p.
Proof. intros p P (e & E & H). apply H. rewrite Rminus_diag_eq by reflexivity. rewrite Rabs_R0. exact E. Qed.
Lemma deriv_around : forall f g p a, around p (fun s => f s = g s) -> derivable_pt_lim f p a -> derivable_pt_lim g p a.
Proof.
  intros f g p a A D e He. pose proof (around_here _ _ A) as E0. cbv beta in E0. destruct A as (d1 & D1 & A). destruct (D e He) as [d2 K].
  assert (0 < Rmin d1 d2) as M by (apply Rmin_pos; [exact D1|apply cond_pos]).
  exists (mkposreal _ M). intros h Hh L. cbn [pos] in L. rewrite <- E0, <- (A (p + h)).
  - apply K; [exact Hh|]. eapply Rlt_le_trans; [exact L|apply Rmin_r].
  - replace (p + h - p) with h by ring. eapply Rlt_le_trans; [exact L|apply Rmin_l].
Qed.
Lemma lderiv_around : forall F G p x, around p (fun s => leq n (F s) (G s)) -> lderiv n F p x -> lderiv n G p x.
Proof.
  intros F G p x A (A1 & A2 & A3 & A4 & A5 & A6).
  refine (conj _ (conj _ (conj _ (conj _ (conj _ _)))));
    [intros i j Hi Hj; specialize (A1 i j Hi Hj)|intros i j Hi Hj; specialize (A2 i j Hi Hj)|intros i Hi; specialize (A3 i Hi)
    |intros i j Hi Hj; specialize (A4 i j Hi Hj)|intros i j Hi Hj; specialize (A5 i j Hi Hj)|intros i Hi; specialize (A6 i Hi)];
    (eapply deriv_around; [|eassumption]); revert A; apply around_imp; intros s (B1 & B2 & B3 & B4 & B5 & B6); auto.
Qed.
End Piles.

(* ------------------------------------------------------------------------- *)
(** * One doubling *)
(** Operators that are the same from both sides *)
Definition sym (R T : mat) (m p : vec) : layer := {| Rm := R; Tm := T; Sm := m; Rp := R; Tp := T; Sp := p |}.
Definition sun (x : sheet) : layer := sym (hR x) (hT x) (Se_m x) (Se_p x).
Definition warm_ (x : sheet) : layer := sym (hR x) (hT x) (Sl_m x) (Sl_p x).
Definition even (x : sheet) : layer := sym (hR x) (hT x) (L_m x) (L_p x).

(** The derivative of a scaled and of a combined layer: *)
Definition dscaled (t t_l : R) (a x : layer) : layer :=
  {| Rm := Rm x; Tm := Tm x; Sm := vadd (vscale t_l (Sm a)) (vscale t (Sm x)); Rp := Rp x; Tp := Tp x; Sp := vadd (vscale t_l (Sp a)) (vscale t (Sp x)) |}.
Definition dcomb (t t_l : R) (b x y : layer) : layer :=
  {| Rm := Rm x; Tm := Tm x; Sm := vadd (Sm x) (vadd (vscale t_l (Sm b)) (vscale t (Sm y)));
     Rp := Rp x; Tp := Tp x; Sp := vadd (Sp x) (vadd (vscale t_l (Sp b)) (vscale t (Sp y))) |}.
Definition or_on (b : bool) (t : R) : R := if b then t else 0.

Section Double.
Variable n : nat.
Local Instance o : @Ring_ops mat zmat ident madd (mmul n) msub mneg (meq n) := mat_ops n.
Local Instance r : Ring (Ro := o) := mat_ring n.
Notation "a =~ b" := (meq n a b) (at level 70).
Notation "a ** b" := (mmul n a b) (at level 40, left associativity).
Notation "a +++ b" := (madd a b) (at level 50, left associativity).
Variable solve : mat -> mat -> mat.
Hypothesis Solve : solver n solve.
Notation join := (join n solve).
Ltac cols := repeat (rewrite col_vadd || rewrite col_scale_mv || rewrite col_mv || rewrite col_one || rewrite col_none || rewrite col_zero).

Section Values.
Variables (R T q : mat).
Hypotheses (Q1 : msub ident (R ** R) ** q =~ ident) (Q2 : q ** msub ident (R ** R) =~ ident).
Lemma solve_is : forall x, solve (i_sub (R ** R)) x =~ x ** q.
Proof. intros x. apply solve_mul; [exact Solve|rewrite i_sub_is; exact Q1|rewrite i_sub_is; exact Q2]. Qed.
Lemma join_sym : forall m p m' p', leq n (join 1 (sym R T m p) (sym R T m' p'))
  (sym (R +++ (T ** q) ** (R ** T)) ((T ** q) ** T) (vadd m' (mv n (T ** q) (vadd m (mv n R p')))) (vadd p (mv n (T ** q) (vadd p' (mv n R m))))).
Proof.
  intros. refine (conj _ (conj _ (conj _ (conj _ (conj _ _))))); cbn [AddingJoin.join sym Rm Tm Sm Rp Tp Sp];
    lazymatch goal with |- veq _ _ _ => apply veq_col | |- _ => idtac end; cols; rewrite ?solve_is; cols; rewrite ?solve_is; non_commutative_ring.
Qed.
Ltac six := refine (conj _ (conj _ (conj _ (conj _ (conj _ _))))); cbn [sym Rm Tm Sm Rp Tp Sp];
    lazymatch goal with |- veq _ _ _ => apply veq_col | |- _ => idtac end; cols; rewrite ?solve_is; cols; rewrite ?solve_is; non_commutative_ring.
Section Sheet.
Variable x : sheet.
Hypotheses (HR : hR x = R) (HT : hT x = T).
Lemma sun_double : forall th init t l, leq n (sun (double n solve true th init t l x)) (join 1 (sun x) (scaled t (sun x))).
Proof.
  intros. assert (hR (start_L th init x) = R /\ hT (start_L th init x) = T /\ Se_m (start_L th init x) = Se_m x /\ Se_p (start_L th init x) = Se_p x) as (E1 & E2 & E3 & E4)
    by (destruct th, init; cbn; auto).
  unfold double. cbv zeta. rewrite E1, E2, E3, E4.
  eapply leq_trans; [|apply leq_sym; unfold sun; cbn [scaled sym Rm Tm Sm Rp Tp Sp]; rewrite HR, HT; apply join_sym].
  unfold sun. cbn [sym hR hT Se_m Se_p Rm Tm Sm Rp Tp Sp]. six.
Qed.
Lemma sun_double_v : forall th init t l, leq n (sun (double_v n solve true th init t l x)) (join 1 (sun x) (scaled t (sun x))).
Proof.
  intros. assert (hR (start_L th init x) = R /\ hT (start_L th init x) = T /\ Se_m (start_L th init x) = Se_m x /\ Se_p (start_L th init x) = Se_p x) as (E1 & E2 & E3 & E4)
    by (destruct th, init; cbn; auto).
  unfold double_v. cbv zeta. rewrite E1, E2, E3, E4.
  eapply leq_trans; [|apply leq_sym; unfold sun; cbn [scaled sym Rm Tm Sm Rp Tp Sp]; rewrite HR, HT; apply join_sym].
  unfold sun. cbn [sym hR hT Se_m Se_p Rm Tm Sm Rp Tp Sp]. six.
Qed.
Lemma warm_double : forall so init t l, let x' := start_L true init x in
  leq n (warm_ (double n solve so true init t l x)) (join 1 (warm_ x') (comb l (warm_ x') (even x'))) /\
  leq n (even (double n solve so true init t l x)) (join 1 (even x') (even x')).
Proof.
  intros. assert (hR x' = R /\ hT x' = T) as (E1 & E2) by (unfold x'; destruct init; cbn; auto).
  unfold double. fold x'. cbv zeta. rewrite E1, E2. split.
  - eapply leq_trans; [|apply leq_sym; unfold warm_, even; cbn [comb sym Rm Tm Sm Rp Tp Sp]; rewrite E1, E2; apply join_sym].
    unfold warm_. cbn [sym hR hT Sl_m Sl_p Rm Tm Sm Rp Tp Sp]. six.
  - eapply leq_trans; [|apply leq_sym; unfold even; rewrite E1, E2; apply join_sym].
    unfold even. cbn [sym hR hT L_m L_p Rm Tm Sm Rp Tp Sp]. six.
Qed.
Lemma warm_double_v : forall so init t l, let x' := start_L true init x in
  leq n (warm_ (double_v n solve so true init t l x)) (join 1 (warm_ x') (comb l (warm_ x') (even x'))) /\
  leq n (even (double_v n solve so true init t l x)) (join 1 (even x') (even x')).
Proof.
  intros. assert (hR x' = R /\ hT x' = T) as (E1 & E2) by (unfold x'; destruct init; cbn; auto).
  unfold double_v. fold x'. cbv zeta. rewrite E1, E2. split.
  - eapply leq_trans; [|apply leq_sym; unfold warm_, even; cbn [comb sym Rm Tm Sm Rp Tp Sp]; rewrite E1, E2; apply join_sym].
    unfold warm_. cbn [sym hR hT Sl_m Sl_p Rm Tm Sm Rp Tp Sp]. six.
  - eapply leq_trans; [|apply leq_sym; unfold even; rewrite E1, E2; apply join_sym].
    unfold even. cbn [sym hR hT L_m L_p Rm Tm Sm Rp Tp Sp]. six.
Qed.

(** One derivative *)
Local Instance solve_proper : Proper (meq n ==> meq n) (solve (i_sub (R ** R))).
Proof. intros u v H. rewrite solve_is, solve_is. rewrite H. reflexivity. Qed.
Lemma col_scale_zero : forall t, col (vscale t zvec) =~ zmat.
Proof. intros t i j _ _. unfold col, vscale, zvec, zmat. ring. Qed.
Local Opaque mmul madd mv vadd vscale i_sub.
Ltac cols0 := repeat (rewrite col_vadd || rewrite col_scale_zero || rewrite col_scale_mv || rewrite col_mv || rewrite col_one || rewrite col_none || rewrite col_zero).
Ltac six_d := refine (conj _ (conj _ (conj _ (conj _ (conj _ _)))));
    cbn [flagged djoin dscaled dcomb scaled comb sun warm_ even sym double_d hR hT Se_m Se_p Sl_m Sl_p L_m L_p Rm Tm Sm Rp Tp Sp andb];
    lazymatch goal with |- veq _ _ _ => apply veq_col | |- _ => idtac end; cols0; rewrite ?solve_is; cols0; rewrite ?solve_is; non_commutative_ring.
Lemma sun_double_d : forall y th init dl db dt t t_l l l_l, (dl = true -> db = true) ->
  leq n (flagged dl db (sun (double_d n solve true th init dl db dt t t_l l l_l x y)))
    (djoin n solve (sun x) (scaled t (sun x)) (flagged dl db (sun y)) (dscaled t (or_on db t_l) (sun x) (flagged dl db (sun y)))).
Proof.
  intros y th init dl db dt t t_l l l_l C.
  assert (hR (start_L th init x) = R /\ hT (start_L th init x) = T /\ Se_m (start_L th init x) = Se_m x /\ Se_p (start_L th init x) = Se_p x) as (E1 & E2 & E3 & E4)
    by (destruct th, init; cbn; auto).
  assert (hR (start_L (th && dt) init y) = hR y /\ hT (start_L (th && dt) init y) = hT y /\ Se_m (start_L (th && dt) init y) = Se_m y /\ Se_p (start_L (th && dt) init y) = Se_p y) as (F1 & F2 & F3 & F4)
    by (destruct th, dt, init; cbn; auto).
  unfold double_d. cbv zeta. rewrite E1, E2, E3, E4, F1, F2, F3, F4. unfold sun, scaled. cbn [sym Rm Tm Sm Rp Tp Sp]. rewrite HR, HT.
  destruct dl; [rewrite (C eq_refl)|destruct db]; unfold or_on.
  - six_d.
  - six_d.
  - six_d.
Qed.
Lemma warm_double_d : forall y so init dl db dt t t_l l l_l, (dl = true -> dt = true) -> let x' := start_L true init x in let y' := start_L dt init y in
  leq n (flagged dl dt (warm_ (double_d n solve so true init dl db dt t t_l l l_l x y)))
    (djoin n solve (warm_ x') (comb l (warm_ x') (even x')) (flagged dl dt (warm_ y')) (dcomb l (or_on dt l_l) (even x') (flagged dl dt (warm_ y')) (flagged dl dt (even y')))) /\
  leq n (flagged dl dt (even (double_d n solve so true init dl db dt t t_l l l_l x y)))
    (djoin n solve (even x') (even x') (flagged dl dt (even y')) (flagged dl dt (even y'))).
Proof.
  intros y so init dl db dt t t_l l l_l C x' y'.
  assert (hR x' = R /\ hT x' = T) as (E1 & E2) by (unfold x'; destruct init; cbn; auto).
  unfold double_d. fold x'. cbn [andb]. fold y'. cbv zeta. rewrite E1, E2.
  unfold warm_, even, comb. cbn [sym Rm Tm Sm Rp Tp Sp]. rewrite E1, E2.
  destruct dl; [rewrite (C eq_refl)|destruct dt]; unfold or_on.
  - split; six_d.
  - split; six_d.
  - split; six_d.
Qed.
End Sheet.
End Values.
End Double.
