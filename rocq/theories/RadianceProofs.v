(** The equations solved by the radiances, and their derivatives. *)
From Coq Require Import Reals Bool Arith Lia Lra Setoid Morphisms Ncring Ncring_tac List ZArith.
From Verif Require Import Base DerivsModel DerivsSpec DeltaMSpec DeltaMProofs BeamProofs AddingModel AddingSpec AddingMat AddingJoin AddingDeriv AddingLin AddingCalls
  RadianceModel RadianceSpec.
Open Scope R_scope.

Section Rad.
Variable n : nat.
Local Instance o : @Ring_ops mat zmat ident madd (mmul n) msub mneg (meq n) := mat_ops n.
Local Instance r : Ring (Ro := o) := mat_ring n.
Notation "a =~ b" := (meq n a b) (at level 70).
Notation "a ** b" := (mmul n a b) (at level 40, left associativity).
Notation "a +++ b" := (madd a b) (at level 50, left associativity).
Variable solve : mat -> mat -> mat.
Hypothesis Solve : solver n solve.
Hypothesis Pos : (0 < n)%nat.
Notation csolve := (csolve solve).

(** Transposition *)
Lemma transp_mul : forall a b i j, transp (a ** b) i j = (transp b ** transp a) i j.
Proof. intros. unfold transp, mmul. apply total_ext. intros. ring. Qed.
Lemma transp_ident : transp ident =~ ident.
Proof. intros i j _ _. unfold transp, ident. rewrite Nat.eqb_sym. reflexivity. Qed.
Lemma transp_inverse : forall a b, a ** b =~ ident -> transp b ** transp a =~ ident.
Proof.
  intros a b H i j Hi Hj. rewrite <- transp_mul. unfold transp at 1. rewrite (H j i Hj Hi). exact (transp_ident i j Hi Hj).
Qed.
Definition rows (v : vec) : mat := fun _ k => v k.
Lemma csolve_inverse : forall w p v, w ** p =~ ident -> p ** w =~ ident -> veq n (csolve w v) (mv n p v).
Proof.
  intros w p v H K i Hi. unfold RadianceModel.csolve.
  rewrite (solve_mul n solve (transp w) (transp p) _ Solve (transp_inverse _ _ K) (transp_inverse _ _ H) 0%nat i Pos Hi).
  unfold mmul, mv, transp. apply total_ext. intros. ring.
Qed.
Lemma csolve_col : forall w p v, w ** p =~ ident -> p ** w =~ ident -> col (csolve w v) =~ p ** col v.
Proof. intros w p v H K. rewrite (proj1 (veq_col n _ _) (csolve_inverse w p v H K)). apply col_mv. Qed.
Lemma csolve_deriv : forall (w : R -> mat) (v : R -> vec) p q w' v', w p ** q =~ ident -> q ** w p =~ ident ->
  mderiv n w p w' -> vderiv n v p v' ->
  vderiv n (fun t => csolve (w t) (v t)) p (mv n q (fun i => v' i - mv n w' (csolve (w p) (v p)) i)).
Proof.
  intros w v p q w' v' Q1 Q2 W V.
  pose proof (solve_deriv n solve Solve (fun t => transp (w t)) (fun t => rows (v t)) p (transp q) (transp w') (rows v')
    (transp_inverse _ _ Q2) (transp_inverse _ _ Q1)) as H.
  assert (mderiv n (fun t => solve (transp (w t)) (rows (v t))) p (msub (rows v') (solve (transp (w p)) (rows (v p)) ** transp w') ** transp q)) as D.
  { apply H; [intros i j Hi Hj; exact (W j i Hj Hi)|intros i j _ Hj; exact (V j Hj)]. }
  intros i Hi. specialize (D 0%nat i Pos Hi). cbv beta in D. eapply dl_eq; [exact D|].
  unfold mmul, mv, transp, msub, rows. apply total_ext. intros k Hk. unfold RadianceModel.csolve, transp, rows.
  rewrite (total_ext n (fun k0 => solve (fun i0 j => w p j i0) (fun _ k1 => v p k1) 0%nat k0 * w' k k0)
    (fun k0 => w' k k0 * solve (fun i0 j => w p j i0) (fun _ c => v p c) 0%nat k0)); [ring|]. intros. ring.
Qed.

Ltac cols := repeat (rewrite col_vadd || rewrite col_mv || rewrite col_one || rewrite col_none || rewrite col_zero).

(* ------------------------------------------------------------------------- *)
(** * Values *)
Section Values.
Variables (y : layer) (f : face) (t : vec).
Hypothesis Reg : regular n (Rp y) (fR f).
Lemma reg_inverse : exists q, i_sub (Rp y ** fR f) ** q =~ ident /\ q ** i_sub (Rp y ** fR f) =~ ident.
Proof. destruct (regular_inverse n _ _ Reg) as (q & A & B). exists q. split; rewrite i_sub_is; assumption. Qed.
Let pm := boa_all n solve (Rp y) (Tm y) (fR f) (Sm y) (fS f) t.
Lemma boa_all_down : col (snd pm) =~ Tm y ** col t +++ Rp y ** col (fst pm) +++ col (Sm y).
Proof.
  destruct reg_inverse as (q & A & B).
  assert (i_sub (Rp y ** fR f) ** col (snd pm) =~ Rp y ** col (fS f) +++ Tm y ** col t +++ col (Sm y)) as E.
  { unfold pm, boa_all. cbn [snd]. rewrite (csolve_col _ q _ A B). cols.
    transitivity ((i_sub (Rp y ** fR f) ** q) ** (Rp y ** col (fS f) +++ Tm y ** col t +++ col (Sm y))); [non_commutative_ring|].
    rewrite A. non_commutative_ring. }
  assert (col (fst pm) =~ fR f ** col (snd pm) +++ col (fS f)) as P by (unfold pm, boa_all; cbn [fst snd]; cols; reflexivity).
  rewrite P. transitivity (i_sub (Rp y ** fR f) ** col (snd pm) +++ (Rp y ** fR f) ** col (snd pm)); [rewrite i_sub_is; non_commutative_ring|].
  rewrite E. non_commutative_ring.
Qed.
Lemma boa_all_reflects : reflects n f (snd pm) (fst pm).
Proof. intros i Hi. unfold pm, boa_all. cbn [fst snd]. reflexivity. Qed.
Lemma slab_interacts : forall b, interacts n y t b (slab n (Rm y) (Tp y) (Sp y) t b) (slab n (Rp y) (Tm y) (Sm y) b t).
Proof. intros b i Hi. unfold slab, vadd, mv, dot. split; ring. Qed.
Lemma boa_all_interacts : interacts n y t (fst pm) (slab n (Rm y) (Tp y) (Sp y) t (fst pm)) (snd pm).
Proof.
  apply interacts_col. split; [unfold slab; cols; reflexivity|exact boa_all_down].
Qed.
(** No other radiances satisfy the equations. *)
Lemma field_unique : forall u0 d u u0' d' u', interacts n y t u u0 d -> reflects n f d u -> interacts n y t u' u0' d' -> reflects n f d' u' ->
  veq n u0 u0' /\ veq n d d' /\ veq n u u'.
Proof.
  intros u0 d u u0' d' u' H K H' K'. destruct reg_inverse as (q & A & B).
  assert (forall u0 d u, interacts n y t u u0 d -> reflects n f d u -> col d =~ q ** (Rp y ** col (fS f) +++ Tm y ** col t +++ col (Sm y))) as U.
  { intros v0 e v X Y. apply interacts_col in X as [_ X].
    assert (col v =~ fR f ** col e +++ col (fS f)) as V by (intros i j Hi _; exact (Y i Hi)).
    assert (i_sub (Rp y ** fR f) ** col e =~ Rp y ** col (fS f) +++ Tm y ** col t +++ col (Sm y)) as E.
    { transitivity (msub (col e) (Rp y ** (fR f ** col e))); [rewrite i_sub_is; non_commutative_ring|].
      transitivity (msub (Tm y ** col t +++ Rp y ** col v +++ col (Sm y)) (Rp y ** (fR f ** col e))); [rewrite <- X; reflexivity|].
      rewrite V. non_commutative_ring. }
    rewrite <- E. transitivity ((q ** i_sub (Rp y ** fR f)) ** col e); [rewrite B; non_commutative_ring|non_commutative_ring]. }
  assert (veq n d d') as D by (apply veq_col; rewrite (U _ _ _ H K), (U _ _ _ H' K'); reflexivity).
  assert (veq n u u') as V.
  { intros i Hi. rewrite (K i Hi), (K' i Hi). unfold dot. f_equal. apply total_ext. intros k Hk. rewrite (D k Hk). reflexivity. }
  refine (conj _ (conj D V)). intros i Hi. destruct (H i Hi) as [-> _]. destruct (H' i Hi) as [-> _].
  f_equal. f_equal. unfold dot. apply total_ext. intros k Hk. rewrite (V k Hk). reflexivity.
Qed.
End Values.

(* ------------------------------------------------------------------------- *)
(** * Derivatives: what the code says varies *)
Definition mon (b : bool) (a : mat) : mat := if b then a else zmat.
Definition von (b : bool) (v : vec) : vec := if b then v else zvec.

Lemma slab_exact : forall l s l2 s2 Rr T R_l T_l S_l I1 I2 I1_l I2_l,
  veq n (slab_l n (down_code l s l2 s2) Rr T R_l T_l S_l I1 I2 I1_l I2_l)
    (vadd (vadd (vadd (mv n (mon l R_l) I1) (mv n Rr I1_l)) (vadd (mv n (mon l T_l) I2) (mv n T I2_l))) (von s S_l)).
Proof.
  intros l s l2 s2 Rr T R_l T_l S_l I1 I2 I1_l I2_l. apply veq_col. unfold slab_l.
  assert (top_s (down_code l s l2 s2) = s /\ top_l (down_code l s l2 s2) = l) as [-> ->] by (destruct l, s, l2, s2; split; reflexivity).
  destruct l, s; cbn [negb andb mon von]; cols; non_commutative_ring.
Qed.
Lemma slab_deriv : forall (fR_ fT : R -> mat) (fS_ f1 f2 : R -> vec) p R' T' S' I1' I2', mderiv n fR_ p R' -> mderiv n fT p T' -> vderiv n fS_ p S' ->
  vderiv n f1 p I1' -> vderiv n f2 p I2' ->
  vderiv n (fun x => slab n (fR_ x) (fT x) (fS_ x) (f1 x) (f2 x)) p
    (vadd (vadd (vadd (mv n R' (f1 p)) (mv n (fR_ p) I1')) (vadd (mv n T' (f2 p)) (mv n (fT p) I2'))) S').
Proof.
  intros fR_ fT fS_ f1 f2 p R' T' S' I1' I2' DR DT DS D1 D2. unfold slab.
  apply vderiv_add; [apply vderiv_add; apply vderiv_mv; assumption|exact DS].
Qed.

Section Boa.
Variables (R12 T12 R23 q : mat) (S12 I3 I1 : vec).
Hypotheses (Q1 : i_sub (R12 ** R23) ** q =~ ident) (Q2 : q ** i_sub (R12 ** R23) =~ ident).
Variables (R12_l T12_l R23_l : mat) (S12_l I3_l I1_l : vec) (old : vec * vec).
(** The derivatives of the solution, as functions of the derivatives of the inputs *)
Definition d_m (R12' T12' R23' : mat) (S12' I2_m : vec) : mat :=
  q ** (R12' ** (R23 ** col I2_m) +++ R12 ** (R23' ** col I2_m) +++ R12' ** col I3 +++ R12 ** col I3_l +++ T12' ** col I1 +++ T12 ** col I1_l +++ col S12').
Definition d_p (R23' : mat) (I2_m : vec) (m' : mat) : mat := R23' ** col I2_m +++ R23 ** m' +++ col I3_l.
Lemma boa_all_exact : forall l l2 s2 I2_m,
  let z := boa_all_l n solve (down_code l l l2 s2) R12 T12 R23 R12_l T12_l R23_l S12_l I3 I1 I3_l I1_l I2_m old in
  let m' := d_m (mon l R12_l) (mon l T12_l) (mon l2 R23_l) (von l S12_l) I2_m in
  col (snd z) =~ m' /\ col (fst z) =~ d_p (mon l2 R23_l) I2_m m'.
Proof.
  intros l l2 s2 I2_m. destruct l, l2, s2; cbn [boa_all_l down_code mon von]; cbv zeta;
    cbv beta iota delta [boa_all_l down_code Z.lor Z.eqb orb]; cbn;
    (split; [|unfold d_p]); unfold d_m; cols; rewrite ?(csolve_col _ q _ Q1 Q2); cols; non_commutative_ring.
Qed.
Lemma boa_ref_exact : forall l l2 s2 I2_m, l || l2 || negb s2 = true ->
  let z := boa_ref_l n solve (down_code l l l2 s2) R12 R23 R12_l R23_l S12_l I3 I3_l I2_m old in
  let m' := q ** (mon l R12_l ** (R23 ** col I2_m) +++ R12 ** (mon l2 R23_l ** col I2_m) +++ mon l R12_l ** col I3 +++ R12 ** col I3_l +++ col (von l S12_l)) in
  col (snd z) =~ m' /\ col (fst z) =~ d_p (mon l2 R23_l) I2_m m'.
Proof.
  intros l l2 s2 I2_m. destruct l, l2, s2; intros C; try discriminate C; cbn [boa_ref_l down_code mon von]; cbv zeta;
    cbv beta iota delta [boa_ref_l down_code Z.lor Z.eqb orb]; cbn;
    (split; [|unfold d_p]); cols; rewrite ?(csolve_col _ q _ Q1 Q2); cols; non_commutative_ring.
Qed.
End Boa.

Lemma col_minus_mv : forall u a v, col (fun i => u i - mv n a v i) =~ msub (col u) (a ** col v).
Proof. intros u a v i j _ _. reflexivity. Qed.
Lemma neg_mul : forall a b, mneg a ** b =~ mneg (a ** b).
Proof. intros. non_commutative_ring. Qed.

(** The derivatives of the solution itself *)
Lemma boa_all_deriv : forall (C : R -> layer) (G : R -> face) (T : R -> vec) p C' G' T' q y f t, C p = y -> G p = f -> T p = t ->
  i_sub (Rp y ** fR f) ** q =~ ident -> q ** i_sub (Rp y ** fR f) =~ ident ->
  lderiv n C p C' -> fderiv n G p G' -> vderiv n T p T' -> forall u d,
  let pm s := boa_all n solve (Rp (C s)) (Tm (C s)) (fR (G s)) (Sm (C s)) (fS (G s)) (T s) in
  let I2_m := snd (boa_all n solve (Rp y) (Tm y) (fR f) (Sm y) (fS f) t) in
  let m' := d_m (Rp y) (Tm y) (fR f) q (fS f) t (fS G') T' (Rp C') (Tm C') (fR G') (Sm C') I2_m in
  col d =~ m' -> col u =~ d_p (fR f) (fS G') (fR G') I2_m m' ->
  vderiv n (fun s => snd (pm s)) p d /\ vderiv n (fun s => fst (pm s)) p u.
Proof.
  intros C G T p C' G' T' q y f t <- <- <- Q1 Q2 (D1 & D2 & D3 & D4 & D5 & D6) [E1 E2] DT u d pm I2_m m' Hd Hu.
  assert (vderiv n (fun s => snd (pm s)) p d) as Dd.
  { unfold pm, boa_all. cbn [snd]. eapply vderiv_ext; [|apply csolve_deriv; [exact Q1|exact Q2|apply mderiv_i_sub, mderiv_mul; [exact D4|exact E1]|
      apply vderiv_add; [apply vderiv_add; apply vderiv_mv; eassumption|exact D3]]].
    apply veq_col. rewrite Hd. unfold m', d_m. cols. rewrite col_minus_mv. cols. rewrite neg_mul.
    change (csolve (i_sub (Rp (C p) ** fR (G p))) (vadd (vadd (mv n (Rp (C p)) (fS (G p))) (mv n (Tm (C p)) (T p))) (Sm (C p)))) with I2_m.
    non_commutative_ring. }
  split; [exact Dd|]. unfold pm at 1, boa_all. cbn [fst].
  eapply vderiv_ext; [|apply vderiv_add; [apply vderiv_mv; [exact E1|exact Dd]|exact E2]].
  apply veq_col. rewrite Hu. unfold d_p. cols. rewrite Hd. reflexivity.
Qed.
Lemma boa_ref_deriv : forall (C : R -> face) (G : R -> face) p C' G' q y f, C p = y -> G p = f ->
  i_sub (fR y ** fR f) ** q =~ ident -> q ** i_sub (fR y ** fR f) =~ ident ->
  fderiv n C p C' -> fderiv n G p G' -> forall u d,
  let pm s := boa_ref n solve (fR (C s)) (fS (C s)) (fR (G s)) (fS (G s)) in
  let I2_m := snd (boa_ref n solve (fR y) (fS y) (fR f) (fS f)) in
  let m' := q ** (fR C' ** (fR f ** col I2_m) +++ fR y ** (fR G' ** col I2_m) +++ fR C' ** col (fS f) +++ fR y ** col (fS G') +++ col (fS C')) in
  col d =~ m' -> col u =~ d_p (fR f) (fS G') (fR G') I2_m m' ->
  vderiv n (fun s => snd (pm s)) p d /\ vderiv n (fun s => fst (pm s)) p u.
Proof.
  intros C G p C' G' q y f <- <- Q1 Q2 [D1 D2] [E1 E2] u d pm I2_m m' Hd Hu.
  assert (vderiv n (fun s => snd (pm s)) p d) as Dd.
  { unfold pm, boa_ref. cbn [snd]. eapply vderiv_ext; [|apply csolve_deriv; [exact Q1|exact Q2|apply mderiv_i_sub, mderiv_mul; [exact D1|exact E1]|
      apply vderiv_add; [apply vderiv_mv; eassumption|exact D2]]].
    apply veq_col. rewrite Hd. unfold m'. cols. rewrite col_minus_mv. cols. rewrite neg_mul.
    change (csolve (i_sub (fR (C p) ** fR (G p))) (vadd (mv n (fR (C p)) (fS (G p))) (fS (C p)))) with I2_m.
    non_commutative_ring. }
  split; [exact Dd|]. unfold pm at 1, boa_ref. cbn [fst].
  eapply vderiv_ext; [|apply vderiv_add; [apply vderiv_mv; [exact E1|exact Dd]|exact E2]].
  apply veq_col. rewrite Hu. unfold d_p. cols. rewrite Hd. reflexivity.
Qed.
(** Values seen from below *)
Lemma boa_ref_sound : forall y f, regular n (fR y) (fR f) ->
  let pm := boa_ref n solve (fR y) (fS y) (fR f) (fS f) in reflects n y (fst pm) (snd pm) /\ reflects n f (snd pm) (fst pm).
Proof.
  intros y f Reg pm. split; [|intros i Hi; reflexivity].
  assert (exists q, i_sub (fR y ** fR f) ** q =~ ident /\ q ** i_sub (fR y ** fR f) =~ ident) as (q & A & B).
  { destruct (regular_inverse n _ _ Reg) as (q & A & B). exists q. split; rewrite i_sub_is; assumption. }
  assert (i_sub (fR y ** fR f) ** col (snd pm) =~ fR y ** col (fS f) +++ col (fS y)) as E.
  { unfold pm, boa_ref. cbn [snd]. rewrite (csolve_col _ q _ A B). cols.
    transitivity ((i_sub (fR y ** fR f) ** q) ** (fR y ** col (fS f) +++ col (fS y))); [non_commutative_ring|].
    rewrite A. non_commutative_ring. }
  assert (col (fst pm) =~ fR f ** col (snd pm) +++ col (fS f)) as P by (unfold pm, boa_ref; cbn [fst snd]; cols; reflexivity).
  assert (col (snd pm) =~ fR y ** col (fst pm) +++ col (fS y)) as X.
  { rewrite P. transitivity (i_sub (fR y ** fR f) ** col (snd pm) +++ (fR y ** fR f) ** col (snd pm)); [rewrite i_sub_is; non_commutative_ring|].
    rewrite E. non_commutative_ring. }
  intros i Hi. exact (X i i Hi Hi).
Qed.
(** The layers above a face, layer by layer or all at once *)
Lemma above_field : forall m ls f d u, AddingSpec.above n (S m) ls f d u 0 <-> exists dm um, field n m ls f d u dm um.
Proof.
  induction m as [|m IH]; intros ls f d u.
  - cbn [AddingSpec.above]. split; intros (dm & um & X & Y); exists dm, um; (split; [exact X|exact Y]).
  - cbn [AddingSpec.above]. split.
    + intros (d1 & u1 & X & Y). change (AddingSpec.above n (S m) ls f d1 u1 1) in Y. apply above_shift in Y. apply IH in Y as (dm & um & Y & Z).
      exists dm, um. split; [|exact Z]. apply through_cons. exists d1, u1. split; [exact X|exact Y].
    + intros (dm & um & Y & Z). apply through_cons in Y as (d1 & u1 & X & Y). exists d1, u1. split; [exact X|].
      change (AddingSpec.above n (S m) ls f d1 u1 1). apply above_shift, IH. exists dm, um. split; [exact Y|exact Z].
Qed.
Lemma toa_ref_exact : forall a b c e Rr R_l S_l I1 I1_l,
  veq n (toa_ref_l n (down_code a b c e) Rr R_l S_l I1 I1_l) (vadd (vadd (mv n (mon (a || c) R_l) I1) (mv n Rr I1_l)) (von (b || e) S_l)).
Proof.
  intros a b c e Rr R_l S_l I1 I1_l. apply veq_col. unfold toa_ref_l.
  assert (top_s (down_code a b c e) || bottom_s (down_code a b c e) = b || e) as -> by (destruct a, b, c, e; reflexivity).
  assert (top_l (down_code a b c e) || bottom_l (down_code a b c e) = a || c) as -> by (destruct a, b, c, e; reflexivity).
  destruct (a || c), (b || e); cbn [negb andb mon von]; cols; non_commutative_ring.
Qed.
Lemma interacts_veq : forall l d u u0 d2 u0' d2', veq n u0 u0' -> veq n d2 d2' -> interacts n l d u u0 d2 -> interacts n l d u u0' d2'.
Proof. intros l d u u0 d2 u0' d2' A B H i Hi. rewrite <- (A i Hi), <- (B i Hi). exact (H i Hi). Qed.
End Rad.
