From Coq Require Import Reals Lra Lia Bool Arith.
From Verif Require Import Base DerivsModel DeltaMModel BeamModel SingleModel SingleSpec SingleAdjModel SingleAdjSpec DeltaMSpec DeltaMProofs BeamProofs AddingMat SingleProofs.
Open Scope R_scope.

(** ** The pairing of adjoints with a direction *)
Lemma sum2_add : forall n m c y i k v, (i < n)%nat -> (k < m)%nat ->
  sum2 n m c (set1 y i (add1 (y i) k v)) = sum2 n m c y + c i k * v.
Proof.
  intros n m c y i k v N K. unfold sum2.
  assert (forall h : nat -> R, total n (fun a => if Nat.eqb a i then h a else 0) = h i) as ONE.
  { intros h. rewrite (total_one n i); [rewrite Nat.eqb_refl; reflexivity|exact N|]. intros a _ NE. destruct (Nat.eqb_spec a i); [contradiction|reflexivity]. }
  rewrite <- (ONE (fun a => c a k * v)), <- total_plus. apply total_ext. intros a _. unfold set1 at 1.
  destruct (Nat.eqb_spec a i) as [->|NE]; [|ring]. apply total_add1. exact K.
Qed.

Section Pot.
Variables (n m : nat) (d : atm) (dI : nat -> R) (u_l : R) (i : nat).
Hypothesis N : (i < n)%nat.
Definition pot (s : wk) : R := pair n m d (w s) + total m (fun k => dI k * ia s k) + u_l * ua s.
Lemma pot_om : forall y s, pot (inc_om i y s) = pot s + t_om d i * y.
Proof. intros. unfold pot, pair, inc_om; cbn [w ia ua t_om t_lt t_bt t_sl t_ph]. rewrite total_add1 by exact N. ring. Qed.
Lemma pot_lt : forall y s, pot (inc_lt i y s) = pot s + t_lt d i * y.
Proof. intros. unfold pot, pair, inc_lt; cbn [w ia ua t_om t_lt t_bt t_sl t_ph]. rewrite total_add1 by exact N. ring. Qed.
Lemma pot_bt : forall y s, pot (inc_bt i y s) = pot s + t_bt d i * y.
Proof. intros. unfold pot, pair, inc_bt; cbn [w ia ua t_om t_lt t_bt t_sl t_ph]. rewrite total_add1 by exact N. ring. Qed.
Lemma pot_sl : forall y s, pot (inc_sl i y s) = pot s + t_sl d i * y.
Proof. intros. unfold pot, pair, inc_sl; cbn [w ia ua t_om t_lt t_bt t_sl t_ph]. rewrite total_add1 by exact N. ring. Qed.
Lemma pot_ph : forall k y s, (k < m)%nat -> pot (inc_ph i k y s) = pot s + t_ph d i k * y.
Proof. intros. unfold pot, pair, inc_ph; cbn [w ia ua t_om t_lt t_bt t_sl t_ph]. rewrite sum2_add by assumption. ring. Qed.
Lemma pot_ia : forall k y s, (k < m)%nat -> pot (inc_ia k y s) = pot s + dI k * y.
Proof. intros. unfold pot, inc_ia; cbn [w ia ua]. rewrite total_add1 by assumption. ring. Qed.
Lemma pot_ua : forall y s, pot (inc_ua y s) = pot s + u_l * y.
Proof. intros. unfold pot, inc_ua; cbn [w ia ua]. ring. Qed.
End Pot.

Section Layer.
Variables (x d : atm) (mu : nat -> R) (n m : nat) (v : varied) (i : nat) (E : nat -> elem).
Hypothesis N : (i < n)%nat.
Hypothesis MU : forall k, (k < m)%nat -> mu k <> 0.
Hypothesis FL : forall k, (k < m)%nat -> v i 0%nat = false -> t_ph d i k = 0.
Notation dd k := (fun _ : nat => view d k).
Notation dI := (fun k => der (E k) 0%nat).
Notation up k u := (up_layer (view x k) (dd k) v (mu k) i u (E k)).
Notation dn k u := (dn_layer (view x k) (dd k) v (mu k) i u (E k)).
Notation vals := (fun k => val (E k)).

Lemma loop_pot : forall (body : nat -> wk -> wk) (P : wk -> R) (h : nat -> R) l, (forall k s, (k < l)%nat -> P (body k s) = P s + h k) ->
  forall s, P (loop l body s) = P s + total l h.
Proof.
  intros body P h l. induction l; intros H s; cbn [loop total]; [ring|].
  rewrite H by lia. rewrite IHl by (intros; apply H; lia). ring.
Qed.

Lemma up_elem_pot : forall u I g k s, (k < m)%nat -> 1 / mu k + t_sl x i <> 0 -> t_lt x i <> 0 -> I k = val (E k) ->
  pot n m d dI (u * t_lt d i / t_lt x i) (up_elem_a x mu i u I g k s) =
  pot n m d dI (u * t_lt d i / t_lt x i) s + g k * der (up k u) 0%nat.
Proof.
  intros u I g k s K NZ LN EI. unfold up_elem_a. cbv zeta.
  repeat first [rewrite pot_sl by exact N|rewrite pot_ua|rewrite pot_lt by exact N|rewrite pot_ph by assumption|rewrite pot_om by exact N|
    rewrite pot_bt by exact N|rewrite pot_ia by exact K].
  rewrite EI. unfold up_layer; cbn [der val view om lt ph bt sl].
  generalize (exp (- (t_lt x i - u) / mu k)) (exp (- (t_lt x i - u) * t_sl x i)) (exp (- u * t_sl x i)). intros e1 d1 a1.
  pose proof (MU k K) as MN. pose proof (FL k K) as F.
  generalize dependent (1 / mu k + t_sl x i). intros f NZ.
  destruct (v i 0%nat); [|rewrite (F eq_refl)]; field; auto.
Qed.
Lemma dn_elem_pot : forall u I g k s, (k < m)%nat -> t_sl x i - 1 / mu k <> 0 -> t_lt x i <> 0 -> I k = val (E k) ->
  pot n m d dI (u * t_lt d i / t_lt x i) (dn_elem_a x mu i u I g k s) =
  pot n m d dI (u * t_lt d i / t_lt x i) s + g k * der (dn k u) 0%nat.
Proof.
  intros u I g k s K NZ LN EI. unfold dn_elem_a. cbv zeta.
  repeat first [rewrite pot_sl by exact N|rewrite pot_ua|rewrite pot_lt by exact N|rewrite pot_ph by assumption|rewrite pot_om by exact N|
    rewrite pot_bt by exact N|rewrite pot_ia by exact K].
  rewrite EI. unfold dn_layer; cbn [der val view om lt ph bt sl].
  generalize (exp (- u / mu k)) (exp (- u * t_sl x i)). intros c1 b1.
  pose proof (MU k K) as MN. pose proof (FL k K) as F.
  generalize dependent (t_sl x i - 1 / mu k). intros f NZ.
  destruct (v i 0%nat); [|rewrite (F eq_refl)]; field; auto.
Qed.

(** The whole layer: adjoints of the inputs and of the field entering it *)
Definition both (s : atm * (nat -> R)) : R := pair n m d (fst s) + total m (fun k => dI k * snd s k).
Lemma layer_pot : forall (ea : nat -> R -> (nat -> R) -> (nat -> R) -> nat -> wk -> wk) u I g (h : nat -> R) s, t_lt x i <> 0 ->
  (forall k s, (k < m)%nat -> pot n m d dI (u * t_lt d i / t_lt x i) (ea i u I g k s) = pot n m d dI (u * t_lt d i / t_lt x i) s + h k) ->
  both (layer_a x m ea i u I g s) = both s + total m h.
Proof.
  intros ea u I g h s LN H. unfold layer_a. cbv zeta.
  pose proof (loop_pot _ _ _ m H {| w := fst s; ia := snd s; ua := 0 |}) as L.
  set (s1 := loop m (ea i u I g) {| w := fst s; ia := snd s; ua := 0 |}) in *.
  unfold both; cbn [fst snd]. transitivity (pot n m d dI (u * t_lt d i / t_lt x i) s1).
  - unfold pot. unfold inc_lt at 1 2; cbn [w ia]. unfold pair; cbn [t_om t_lt t_bt t_sl t_ph]. rewrite total_add1 by exact N. field. exact LN.
  - rewrite L. unfold pot; cbn [w ia ua]. ring.
Qed.
Lemma up_layer_pot : forall u I g s, (forall k, (k < m)%nat -> 1 / mu k + t_sl x i <> 0) -> t_lt x i <> 0 ->
  (forall k, (k < m)%nat -> I k = val (E k)) ->
  both (up_layer_a x mu m i u I g s) = both s + total m (fun k => g k * der (up k u) 0%nat).
Proof. intros. apply layer_pot; [assumption|]. intros. apply up_elem_pot; auto. Qed.
Lemma dn_layer_pot : forall u I g s, (forall k, (k < m)%nat -> t_sl x i - 1 / mu k <> 0) -> t_lt x i <> 0 ->
  (forall k, (k < m)%nat -> I k = val (E k)) ->
  both (dn_layer_a x mu m i u I g s) = both s + total m (fun k => g k * der (dn k u) 0%nat).
Proof. intros. apply layer_pot; [assumption|]. intros. apply dn_elem_pot; auto. Qed.
End Layer.

(** ** What the forward run saved *)
Lemma up_val : forall x dx v dx' v' mu i u I I', val I = val I' -> val (up_layer x dx v mu i u I) = val (up_layer x dx' v' mu i u I').
Proof. intros. unfold up_layer; cbn [val]. rewrite H. reflexivity. Qed.
Lemma dn_val : forall x dx v dx' v' mu i u I I', val I = val I' -> val (dn_layer x dx v mu i u I) = val (dn_layer x dx' v' mu i u I').
Proof. intros. unfold dn_layer; cbn [val]. rewrite H. reflexivity. Qed.
Lemma up_at_val : forall x dx v dx' v' mu n k I I', val I = val I' -> val (up_at x dx v mu n k I) = val (up_at x dx' v' mu n k I').
Proof. intros x dx v dx' v' mu n k I I' H. induction k; cbn [up_at]; [exact H|]. apply up_val. exact IHk. Qed.
Lemma dn_at_val : forall x dx v dx' v' mu k I I', val I = val I' -> val (dn_at x dx v mu k I) = val (dn_at x dx' v' mu k I').
Proof. intros x dx v dx' v' mu k I I' H. induction k; cbn [dn_at]; [exact H|]. apply dn_val. exact IHk. Qed.

Lemma up_saves_is : forall y dx v mu n i2 I0 k I o i, (i2 + k <= n)%nat -> val I = val (up_at y dx v mu n (n - (i2 + k)) I0) ->
  up_saves y mu i2 k I o i = if Nat.leb i2 i && Nat.ltb i (i2 + k) then val (up_at y dx v mu n (n - S i) I0) else o i.
Proof.
  intros y dx v mu n i2 I0. induction k; intros I o i L H; cbn [up_saves].
  - destruct (Nat.leb_spec i2 i), (Nat.ltb_spec i (i2 + 0)); cbn [andb]; reflexivity || lia.
  - rewrite IHk; [|lia|].
    + unfold set1. destruct (Nat.leb_spec i2 i), (Nat.ltb_spec i (i2 + k)), (Nat.ltb_spec i (i2 + S k)), (Nat.eqb_spec i (i2 + k)); cbn [andb];
        try reflexivity; try lia. rewrite H. subst i. replace (n - (i2 + S k))%nat with (n - S (i2 + k))%nat by lia. reflexivity.
    + replace (n - (i2 + k))%nat with (S (n - (i2 + S k))) by lia. cbn [up_at].
      replace (n - S (n - (i2 + S k)))%nat with (i2 + k)%nat by lia. apply up_val. exact H.
Qed.
Lemma dn_saves_is : forall y dx v mu I0 k i1 I o i, val I = val (dn_at y dx v mu i1 I0) ->
  dn_saves y mu i1 k I o i = if Nat.leb i1 i && Nat.ltb i (i1 + k) then val (dn_at y dx v mu i I0) else o i.
Proof.
  intros y dx v mu I0. induction k; intros i1 I o i H; cbn [dn_saves].
  - destruct (Nat.leb_spec i1 i), (Nat.ltb_spec i (i1 + 0)); cbn [andb]; reflexivity || lia.
  - rewrite IHk.
    + unfold set1. destruct (Nat.leb_spec (i1 + 1) i), (Nat.leb_spec i1 i), (Nat.ltb_spec i (i1 + 1 + k)), (Nat.ltb_spec i (i1 + S k)), (Nat.eqb_spec i i1);
        cbn [andb]; try reflexivity; try lia. subst i. exact H.
    + rewrite Nat.add_1_r. cbn [dn_at]. apply dn_val. exact H.
Qed.

(** ** All layers *)
Section All.
Variables (x d : atm) (mu : nat -> R) (n m : nat) (v : varied) (q : places) (I0 : nat -> elem) (g : nat -> nat -> R).
Hypothesis ASK : asked n (nu q) (ul q) (taus q).
Hypothesis MU : forall k, (k < m)%nat -> mu k <> 0.
Hypothesis FL : forall i k, (i < n)%nat -> (k < m)%nat -> v i 0%nat = false -> t_ph d i k = 0.
Hypothesis LN : forall i, (i < n)%nat -> t_lt x i <> 0.
Notation dd k := (fun _ : nat => view d k).
Notation U i k := (up_at (view x k) (dd k) v (mu k) n (n - i) (I0 k)).
Notation D i k := (dn_at (view x k) (dd k) v (mu k) i (I0 k)).
Definition up_resp (p : nat) : R := total m (fun k => g p k * der (up_out (view x k) (dd k) v (mu k) n q (I0 k) p) 0%nat).
Definition dn_resp (p : nat) : R := total m (fun k => g p k * der (dn_out (view x k) (dd k) v (mu k) q (I0 k) p) 0%nat).
Definition psi (der_at : nat -> R) (s : atm * (nat -> R)) : R := pair n m d (fst s) + total m (fun k => der_at k * snd s k).

Lemma psi_join : forall h a I p, psi h (a, join_in m I p) = psi h (a, I) + total m (fun k => p k * h k).
Proof.
  intros h a I p. unfold psi; cbn [fst snd]. rewrite Rplus_assoc. f_equal. rewrite <- total_plus. apply total_ext.
  intros k K. unfold join_in. destruct (Nat.ltb_spec k m); [ring|lia].
Qed.
Lemma psi_zero : forall h a, psi h (a, fun _ => 0) = pair n m d a.
Proof. intros. unfold psi; cbn [fst snd]. rewrite (total_zero m (fun k => h k * 0)); [ring|intros; ring]. Qed.

Lemma up_step : forall i k, (i < n)%nat -> up_layer (view x k) (dd k) v (mu k) i 0 (U (S i) k) = U i k.
Proof.
  intros i k L. replace (n - i)%nat with (S (n - S i)) by lia. cbn [up_at]. replace (n - S (n - S i))%nat with i by lia. reflexivity.
Qed.

Section Up.
Hypothesis NZ : forall i k, (i < n)%nat -> (k < m)%nat -> 1 / mu k + t_sl x i <> 0.
Variable saved : nat -> nat -> R.
Hypothesis SV : forall i k, (ul q 0 <= i)%nat -> (i < n)%nat -> (k < m)%nat -> saved i k = val (U (S i) k).

Lemma up_psi : forall i u J s, (ul q 0 <= i)%nat -> (i < n)%nat ->
  psi (fun k => der (U (S i) k) 0%nat) (up_layer_a x mu m i u (saved i) J s) =
  psi (fun k => der (U (S i) k) 0%nat) s + total m (fun k => J k * der (up_layer (view x k) (dd k) v (mu k) i u (U (S i) k)) 0%nat).
Proof.
  intros i u J s L0 L. apply (up_layer_pot x d mu n m v i (fun k => U (S i) k)); auto.
Qed.

Definition up_adj (C : R) (i : nat) (s : sta) : Prop :=
  psi (fun k => der (U i k) 0%nat) (sw s, sa s) = C + total (sp s) up_resp /\ (sp s <= nu q)%nat /\
  (forall p, (p < sp s)%nat -> (ul q p < i)%nat) /\ (forall p, (sp s <= p)%nat -> (p < nu q)%nat -> (i <= ul q p)%nat).

Lemma up_taus_adj : forall C i r p s, taus q = true -> (ul q 0 <= i)%nat -> (i < n)%nat -> (p + r = nu q)%nat ->
  (forall k, (k < p)%nat -> (ul q k <= i)%nat) -> (forall k, (p <= k)%nat -> (k < nu q)%nat -> (i <= ul q k)%nat) ->
  psi (fun k => der (U (S i) k) 0%nat) s = C + total p up_resp ->
  let t := up_taus_a x mu m q saved g i r p s in
  psi (fun k => der (U (S i) k) 0%nat) (snd t) = C + total (fst t) up_resp /\ (fst t <= nu q)%nat /\
  (forall k, (k < fst t)%nat -> (ul q k <= i)%nat) /\ (forall k, (fst t <= k)%nat -> (k < nu q)%nat -> (S i <= ul q k)%nat).
Proof.
  intros C i. induction r; intros p s T L0 L PR HB HA E; cbn [up_taus_a].
  - cbn. refine (conj E (conj _ (conj HB _))); [lia|intros; lia].
  - destruct (Nat.eqb_spec i (ul q p)) as [Q|Q].
    + apply IHr; auto; [lia| | |].
      * intros k K. assert (k = p \/ k < p)%nat as [->|] by lia; [lia|auto].
      * intros k K KN. apply HA; lia.
      * rewrite up_psi by assumption. rewrite E. cbn [total]. rewrite Rplus_assoc. f_equal. f_equal.
        apply total_ext. intros k K. unfold up_out. rewrite T, <- Q. reflexivity.
    + cbn [fst snd]. refine (conj E (conj _ (conj HB _))); [lia|]. intros k K KN.
      pose proof (HA p ltac:(lia) ltac:(lia)). pose proof (ask_mono n q ASK p k K KN). lia.
Qed.

Lemma up_one_adj : forall C i s, (ul q 0 <= i)%nat -> (i < n)%nat -> up_adj C i s -> up_adj C (S i) (up_one_a x mu m q saved g i s).
Proof.
  intros C i s L0 L (E & P & HB & HA). unfold up_one_a.
  pose proof (ask_strict n q ASK) as ST. pose proof (ask_mono n q ASK) as M. pose proof (up_taus_adj C i) as UT.
  destruct (taus q) eqn:T; cbn [negb andb].
  - destruct (UT (nu q - sp s)%nat (sp s) (up_layer_a x mu m i 0 (saved i) (sa s) (sw s, fun _ => 0)) eq_refl L0 L) as (A1 & A2 & A3 & A4); [lia| | | |].
    + intros k K. specialize (HB k K). lia.
    + exact HA.
    + rewrite up_psi by assumption. rewrite psi_zero. rewrite <- E. unfold psi; cbn [fst snd]. f_equal.
      apply total_ext. intros k K. rewrite up_step by exact L. ring.
    + unfold up_adj; cbn [sw sa sp]. refine (conj _ (conj A2 (conj _ A4))).
      * rewrite <- A1. f_equal. now destruct (snd (up_taus_a _ _ _ _ _ _ _ _ _ _)).
      * intros k K. specialize (A3 k K). lia.
  - destruct (Nat.ltb_spec (sp s) (nu q)) as [K1|K1]; [destruct (Nat.eqb_spec i (ul q (sp s))) as [K2|K2]|]; cbn [andb fst snd];
      unfold up_adj; cbn [sw sa sp fst snd].
    + refine (conj _ (conj _ (conj _ _))); [|lia| |].
      * rewrite <- surjective_pairing. rewrite up_psi by assumption. rewrite psi_zero. rewrite Nat.add_1_r. cbn [total].
        rewrite <- Rplus_assoc, <- E.
        transitivity (psi (fun k => der (U i k) 0%nat) (sw s, join_in m (sa s) (g (sp s)))).
        -- unfold psi; cbn [fst snd]. f_equal. apply total_ext. intros k K. rewrite up_step by exact L. ring.
        -- rewrite psi_join. f_equal. apply total_ext. intros k K. unfold up_out. rewrite T, <- K2. reflexivity.
      * intros p K. assert (p = sp s \/ p < sp s)%nat as [->|Lp] by lia; [lia|]. specialize (HB p Lp). lia.
      * intros p K KN. specialize (ST eq_refl (sp s) p ltac:(lia) KN). lia.
    + refine (conj _ (conj P (conj _ _))).
      * rewrite <- surjective_pairing. rewrite up_psi by assumption. rewrite psi_zero, <- E.
        unfold psi; cbn [fst snd]. f_equal. apply total_ext. intros k K. rewrite up_step by exact L. ring.
      * intros p K. specialize (HB p K). lia.
      * intros p K KN. pose proof (HA (sp s) ltac:(lia) K1). pose proof (M (sp s) p K KN). lia.
    + refine (conj _ (conj P (conj _ _))).
      * rewrite <- surjective_pairing. rewrite up_psi by assumption. rewrite psi_zero, <- E.
        unfold psi; cbn [fst snd]. f_equal. apply total_ext. intros k K. rewrite up_step by exact L. ring.
      * intros p K. specialize (HB p K). lia.
      * intros p K KN. lia.
Qed.
Lemma up_loop_adj : forall C k i s, (ul q 0 <= i)%nat -> (i + k <= n)%nat -> up_adj C i s ->
  up_adj C (i + k) (up_loop_a x mu m q saved g i k s).
Proof.
  intros C. induction k; intros i s L0 L H; cbn [up_loop_a].
  - rewrite Nat.add_0_r. exact H.
  - replace (i + S k)%nat with (i + 1 + k)%nat by lia. apply IHk; [lia|lia|]. rewrite Nat.add_1_r. apply up_one_adj; [exact L0|lia|exact H].
Qed.
Lemma up_all_adj : forall a,
  let s := up_loop_a x mu m q saved g (ul q 0) (n - ul q 0) {| sw := a; sa := fun _ => 0; sp := 0 |} in
  psi (fun k => der (I0 k) 0%nat) (sw s, up_end_a m n q g s) = pair n m d a + total (nu q) up_resp.
Proof.
  intros a. cbv zeta. pose proof (ask_pos n q ASK) as POS. pose proof (ask_le n q ASK) as LE. pose proof (ask_strict n q ASK) as ST.
  pose proof (LE 0%nat POS) as L0.
  destruct (up_loop_adj (pair n m d a) (n - ul q 0) (ul q 0) {| sw := a; sa := fun _ => 0; sp := 0 |}) as (E & P & HB & HA).
  - lia.
  - lia.
  - unfold up_adj; cbn [sw sa sp]. refine (conj _ (conj _ (conj _ _))); [rewrite psi_zero; cbn [total]; ring|lia|intros; lia|].
    intros p _ KN. apply (ask_mono n q ASK); [lia|exact KN].
  - set (s := up_loop_a x mu m q saved g (ul q 0) (n - ul q 0) {| sw := a; sa := fun _ => 0; sp := 0 |}) in *.
    replace (ul q 0 + (n - ul q 0))%nat with n in * by lia. 
    assert (forall h, psi (fun k => der (U n k) 0%nat) h = psi (fun k => der (I0 k) 0%nat) h) as Z by (intros h; rewrite Nat.sub_diag; reflexivity).
    rewrite Z in E. unfold up_end_a. pose proof ASK as A. unfold asked in A. destruct (taus q) eqn:T.
    + destruct A as (_ & A & _). assert (sp s = nu q) as SP.
      { destruct (Nat.eq_dec (sp s) (nu q)) as [Q|Q]; [exact Q|]. specialize (HA (sp s) (Nat.le_refl _) ltac:(lia)). specialize (A (sp s) ltac:(lia)). lia. }
      rewrite (proj2 (Nat.ltb_ge (sp s) (nu q))) by lia. cbn [andb]. rewrite E, SP. reflexivity.
    + destruct (Nat.ltb_spec (sp s) (nu q)) as [K1|K1]; cbn [andb].
      * pose proof (HA (sp s) (Nat.le_refl _) K1). pose proof (LE (sp s) K1). destruct (Nat.eqb_spec n (ul q (sp s))) as [K2|K2]; [|lia].
        assert (nu q = S (sp s)) as NU.
        { destruct (Nat.eq_dec (nu q) (S (sp s))) as [Q|Q]; [exact Q|]. specialize (ST eq_refl (sp s) (S (sp s)) ltac:(lia) ltac:(lia)).
          pose proof (LE (S (sp s)) ltac:(lia)). lia. }
        rewrite psi_join, E, NU. cbn [total]. rewrite Rplus_assoc. f_equal. f_equal. apply total_ext. intros k K.
        unfold up_out. rewrite T, <- K2, Nat.sub_diag. reflexivity.
      * rewrite E. replace (sp s) with (nu q) by lia. reflexivity.
Qed.
End Up.

Section Down.
Hypothesis NZ : forall i k, (i < n)%nat -> (k < m)%nat -> t_sl x i - 1 / mu k <> 0.
Variable saved : nat -> nat -> R.
Hypothesis SV : forall i k, (i < dn_end q)%nat -> (k < m)%nat -> saved i k = val (D i k).
(** Line 435 needs an output still to come in every layer *)
Hypothesis TOP : taus q = true -> ul q 0 = 0%nat.

Lemma dn_end_le : (dn_end q <= n)%nat.
Proof.
  pose proof (ask_pos n q ASK) as POS. unfold dn_end. unfold asked in ASK. destruct (taus q); destruct ASK as (_ & A & _);
  specialize (A (nu q - 1)%nat ltac:(lia)); lia.
Qed.
Lemma dn_psi : forall i u J s, (i < dn_end q)%nat ->
  psi (fun k => der (D i k) 0%nat) (dn_layer_a x mu m i u (saved i) J s) =
  psi (fun k => der (D i k) 0%nat) s + total m (fun k => J k * der (dn_layer (view x k) (dd k) v (mu k) i u (D i k)) 0%nat).
Proof.
  intros i u J s L0. pose proof dn_end_le. assert (i < n)%nat by lia. apply (dn_layer_pot x d mu n m v i (fun k => D i k)); auto.
Qed.
Definition rest (p : nat) : R := total (nu q) dn_resp - total p dn_resp.
Definition dn_adj (C : R) (i : nat) (s : sta) : Prop :=
  psi (fun k => der (D i k) 0%nat) (sw s, sa s) = C + rest (sp s) /\ (sp s <= nu q)%nat /\
  (forall p, (p < sp s)%nat -> if taus q then (ul q p < i)%nat else (ul q p <= i)%nat) /\
  (taus q = true -> (0 < i)%nat -> (0 < sp s)%nat).

Lemma dn_taus_adj : forall C i p s, taus q = true -> (i < dn_end q)%nat -> (p <= nu q)%nat ->
  (forall k, (k < p)%nat -> (ul q k <= i)%nat) ->
  psi (fun k => der (D i k) 0%nat) s = C + rest p ->
  let t := dn_taus_a x mu m q saved g i p s in
  psi (fun k => der (D i k) 0%nat) (snd t) = C + rest (fst t) /\ (fst t <= nu q)%nat /\ (forall k, (k < fst t)%nat -> (ul q k < i)%nat) /\
  ((0 < i)%nat -> (0 < p)%nat -> (0 < fst t)%nat).
Proof.
  intros C i. induction p; intros s T L PN HB E; cbn [dn_taus_a].
  - cbn [fst snd]. refine (conj E (conj PN (conj _ _))); intros; lia.
  - destruct (Nat.eqb_spec i (ul q p)) as [Q|Q].
    + destruct (IHp (dn_layer_a x mu m i (ut q p) (saved i) (g p) s) T L ltac:(lia)) as (A1 & A2 & A3 & A4);
        [intros; apply HB; lia| |refine (conj A1 (conj A2 (conj A3 _))); intros I1 _; apply A4; [exact I1|]; destruct p; [rewrite (TOP T) in Q; lia|lia]].
      rewrite dn_psi by assumption. rewrite E. unfold rest. cbn [total].
      replace (total m (fun k => g p k * der (dn_layer (view x k) (dd k) v (mu k) i (ut q p) (D i k)) 0%nat)) with (dn_resp p); [ring|].
      apply total_ext. intros k K. unfold dn_out. rewrite T, <- Q. reflexivity.
    + cbn [fst snd]. refine (conj E (conj PN (conj _ _))); [|intros; lia]. intros k K. pose proof (HB p ltac:(lia)). pose proof (ask_mono n q ASK k p ltac:(lia) ltac:(lia)). lia.
Qed.
Lemma dn_one_adj : forall C i s, (i < dn_end q)%nat -> dn_adj C (S i) s ->
  exists s', dn_one_a x mu m q saved g i s = Some s' /\ dn_adj C i s'.
Proof.
  intros C i s L (E & P & HB & HT). unfold dn_one_a.
  pose proof (ask_strict n q ASK) as ST. pose proof (ask_mono n q ASK) as M. pose proof (ask_pos n q ASK) as POS. pose proof TOP as TP.
  assert (forall J, psi (fun k => der (D i k) 0%nat) (dn_layer_a x mu m i (t_lt x i) (saved i) J (sw s, fun _ => 0)) =
    psi (fun k => der (D (S i) k) 0%nat) (sw s, J)) as STEP.
  { intros J. rewrite dn_psi by exact L. rewrite psi_zero. unfold psi; cbn [fst snd]. f_equal. apply total_ext. intros k K. cbn [dn_at view lt]. ring. }
  unfold dn_adj in *. pose proof (dn_taus_adj C i) as DT.
  destruct (taus q) eqn:T; cbn [negb andb].
  - specialize (TP eq_refl). destruct (sp s) as [|p] eqn:SP.
    + specialize (HT eq_refl ltac:(lia)). lia.
    + destruct (DT (S p) (dn_layer_a x mu m i (t_lt x i) (saved i) (sa s) (sw s, fun _ => 0)) eq_refl L P) as (A1 & A2 & A3 & A4).
      * intros k K. specialize (HB k K). lia.
      * rewrite STEP. exact E.
      * eexists. split; [reflexivity|]. cbn [sw sa sp]. refine (conj _ (conj A2 (conj A3 _))); [|intros _ I1; apply A4; [exact I1|lia]].
        rewrite <- A1. f_equal. now destruct (snd (dn_taus_a _ _ _ _ _ _ _ _ _)).
  - eexists. split; [reflexivity|]. cbn [sw sa sp]. destruct (sp s) as [|p] eqn:SP.
    + rewrite <- surjective_pairing, STEP. refine (conj E (conj P (conj _ _))); [intros; lia|discriminate].
    + pose proof (HB p ltac:(lia)) as Hp. destruct (Nat.eqb_spec (i + 1) (ul q p)) as [Q|Q]; rewrite <- surjective_pairing, STEP.
      * replace (S p - 1)%nat with p by lia. refine (conj _ (conj _ (conj _ _))); [|lia| |discriminate].
        -- rewrite psi_join, E. unfold rest; cbn [total].
           replace (total m (fun k => g p k * der (D (S i) k) 0%nat)) with (dn_resp p); [ring|].
           apply total_ext. intros k K. unfold dn_out. rewrite T, <- Q, Nat.add_1_r. reflexivity.
        -- intros k K. specialize (ST eq_refl k p K ltac:(lia)). lia.
      * refine (conj E (conj P (conj _ _))); [|discriminate].
        intros k K. assert (k = p \/ k < p)%nat as [->|Lk] by lia; [lia|]. specialize (ST eq_refl k p Lk ltac:(lia)). lia.
Qed.
Lemma dn_loop_adj : forall C k s, (k <= dn_end q)%nat -> dn_adj C k s -> exists s', dn_loop_a x mu m q saved g k s = Some s' /\ dn_adj C 0 s'.
Proof.
  intros C. induction k; intros s L H; cbn [dn_loop_a]; [exists s; auto|].
  destruct (dn_one_adj C k s) as (s1 & E & H1); [lia|exact H|]. rewrite E. apply IHk; [lia|exact H1].
Qed.
Lemma dn_all_adj : forall a, exists s, dn_loop_a x mu m q saved g (dn_end q) {| sw := a; sa := fun _ => 0; sp := nu q |} = Some s /\
  psi (fun k => der (I0 k) 0%nat) (sw s, dn_end_a m q g s) = pair n m d a + total (nu q) dn_resp.
Proof.
  intros a. pose proof (ask_pos n q ASK) as POS. pose proof (ask_mono n q ASK) as M. pose proof (ask_strict n q ASK) as ST.
  destruct (dn_loop_adj (pair n m d a) (dn_end q) {| sw := a; sa := fun _ => 0; sp := nu q |}) as (s & R & E & P & HB & HT).
  - lia.
  - unfold dn_adj; cbn [sw sa sp]. refine (conj _ (conj _ (conj _ _))); [rewrite psi_zero; unfold rest; ring|lia| |lia].
    intros p K. pose proof (M p (nu q - 1)%nat ltac:(lia) ltac:(lia)). unfold dn_end. destruct (taus q); lia.
  - exists s. split; [exact R|]. cbn [dn_at] in E. unfold dn_end_a. destruct (taus q) eqn:T.
    + destruct (sp s) as [|p] eqn:SP; [|specialize (HB 0%nat ltac:(lia)); lia]. rewrite E. unfold rest; cbn [total]. ring.
    + destruct (sp s) as [|p] eqn:SP; [rewrite E; unfold rest; cbn [total]; ring|].
      pose proof (HB p ltac:(lia)). destruct (Nat.eqb_spec 0 (ul q p)) as [Q|Q]; [|lia].
      assert (p = 0)%nat as -> by (destruct p; [reflexivity|specialize (ST eq_refl 0%nat (S p) ltac:(lia) ltac:(lia)); lia]).
      rewrite psi_join, E. unfold rest; cbn [total].
      replace (total m (fun k => g 0%nat k * der (I0 k) 0%nat)) with (dn_resp 0); [ring|].
      apply total_ext. intros k K. unfold dn_out. rewrite T, <- Q. reflexivity.
Qed.
End Down.
End All.
