(** The rows of the matrix of the two-stream solver, and the light that its amplitudes describe *)
From Coq Require Import Reals Bool Arith List ZArith Lia Lra.
From Verif Require Import Base DeltaMSpec DeltaMProofs AddingModel AddingSpec AddingMat EigModel EigSpec EigMat EigProofs AtmSpec TwoSpec TwoModel.
Import ListNotations.
Open Scope R_scope.

Section Rows.
Variable d : deck.
Variables (solar : bool) (m : nat).
Variable g : ground.
Variable ws : nat -> wave.
Notation Xp k := (w_Xp (ws k)).
Notation Xm k := (w_Xm (ws k)).
Notation La k := (w_L (ws k)).

(** The entries of the matrix, column by column: those of the layer [k] are in the columns 2 k and 2 k + 1. *)
Definition left_entry (r k : nat) : R :=
  if (r =? 0)%nat && (k =? 0)%nat then - Xm k
  else if (S r =? 2 * k)%nat then - Xp k
  else if (r =? 2 * k)%nat then Xm k
  else if (r =? 2 * k + 1)%nat then (if (k =? m)%nat then V_p m g ws * La k else Xp k * La k)
  else if (r =? 2 * k + 2)%nat then (if (k =? m)%nat then 0 else - Xm k * La k) else 0.
Definition right_entry (r k : nat) : R :=
  if (r =? 0)%nat && (k =? 0)%nat then - Xp k * La k
  else if (S r =? 2 * k)%nat then - Xm k * La k
  else if (r =? 2 * k)%nat then Xp k * La k
  else if (r =? 2 * k + 1)%nat then (if (k =? m)%nat then V_m m g ws else Xm k)
  else if (r =? 2 * k + 2)%nat then (if (k =? m)%nat then 0 else - Xp k) else 0.
(** The columns of the layers before [K] are done. *)
Definition done (K : nat) (a : mat) : Prop := forall r k,
  a r (2 * k)%nat = (if (k <? K)%nat then left_entry r k else 0) /\ a r (2 * k + 1)%nat = (if (k <? K)%nat then right_entry r k else 0).

Lemma assigns_app : forall l1 l2 a, assigns m (l1 ++ l2) a = bind (assigns m l1 a) (assigns m l2).
Proof. induction l1; intros l2 b; [reflexivity|]. cbn [assigns app]. destruct (assign m a b); cbn [bind]; [apply IHl1|reflexivity|reflexivity|reflexivity]. Qed.
Lemma put_step : forall r c x l a, (r < order m)%nat -> (c < order m)%nat -> assigns m (Put r c x :: l) a = assigns m l (set r c x a).
Proof. intros r c x l a Hr Hc. cbn [assigns assign]. unfold inside. destruct (Nat.ltb_spec r (order m)); [|lia]. destruct (Nat.ltb_spec c (order m)); [|lia]. reflexivity. Qed.
Lemma copy_step : forall r c r' c' l a, (r < order m)%nat -> (c < order m)%nat -> (r' < order m)%nat -> (c' < order m)%nat ->
  assigns m (Copy r c r' c' :: l) a = assigns m l (set r c (a r' c') a).
Proof.
  intros r c r' c' l a Hr Hc Hr' Hc'. cbn [assigns assign]. unfold inside. destruct (Nat.ltb_spec r (order m)); [|lia]. destruct (Nat.ltb_spec c (order m)); [|lia].
  destruct (Nat.ltb_spec r' (order m)); [|lia]. destruct (Nat.ltb_spec c' (order m)); [|lia]. reflexivity.
Qed.
Lemma set_here : forall r c x a, set r c x a r c = x.
Proof. intros. unfold set. rewrite !Nat.eqb_refl. reflexivity. Qed.
Lemma set_there : forall r c x a p q, (p <> r \/ q <> c)%nat -> set r c x a p q = a p q.
Proof. intros r c x a p q H. unfold set. destruct (Nat.eqb_spec p r); destruct (Nat.eqb_spec q c); try reflexivity. lia. Qed.

Ltac nat_tests := repeat match goal with
  | |- context [Nat.eqb ?a ?b] => destruct (Nat.eqb_spec a b); try lia
  | |- context [Nat.ltb ?a ?b] => destruct (Nat.ltb_spec a b); try lia end.
Ltac walk := repeat first [rewrite put_step by (unfold order; lia) | rewrite copy_step by (unfold order; lia)].

Ltac place := repeat first [rewrite set_there by lia | match goal with |- context [set ?r ?c ?x ?a ?p ?q] => replace (set r c x a p q) with x by (unfold set; nat_tests; reflexivity) end].
Lemma start : done 0 zmat.
Proof. intros r k. split; reflexivity. Qed.
Lemma entry_0 : left_entry 0 0 = - Xm 0%nat /\ right_entry 0 0 = - Xp 0%nat * La 0%nat.
Proof. split; reflexivity. Qed.
Lemma entry_up : forall k, (0 < k)%nat -> left_entry (2 * k - 1) k = - Xp k /\ right_entry (2 * k - 1) k = - Xm k * La k.
Proof. intros k Hk. unfold left_entry, right_entry. nat_tests. cbn [andb]. split; reflexivity. Qed.
Lemma entry_down : forall k, (0 < k)%nat -> left_entry (2 * k) k = Xm k /\ right_entry (2 * k) k = Xp k * La k.
Proof. intros k Hk. unfold left_entry, right_entry. nat_tests. cbn [andb]. split; reflexivity. Qed.
Lemma entry_up_below : forall k, (k < m)%nat -> left_entry (2 * k + 1) k = Xp k * La k /\ right_entry (2 * k + 1) k = Xm k.
Proof. intros k Hk. unfold left_entry, right_entry. nat_tests; cbn [andb]; split; reflexivity. Qed.
Lemma entry_down_below : forall k, (k < m)%nat -> left_entry (2 * k + 2) k = - Xm k * La k /\ right_entry (2 * k + 2) k = - Xp k.
Proof. intros k Hk. unfold left_entry, right_entry. nat_tests; cbn [andb]; split; reflexivity. Qed.
Lemma entry_last : left_entry (2 * m + 1) m = V_p m g ws * La m /\ right_entry (2 * m + 1) m = V_m m g ws.
Proof. unfold left_entry, right_entry. nat_tests; cbn [andb]; split; reflexivity. Qed.
Lemma entry_none : forall r k, (S r <> 2 * k)%nat -> (r <> 2 * k)%nat -> (r <> 2 * k + 1)%nat -> (r <> 2 * k + 2 \/ k = m)%nat -> left_entry r k = 0 /\ right_entry r k = 0.
Proof. intros r k H1 H2 H3 H4. unfold left_entry, right_entry. nat_tests; cbn [andb]; split; reflexivity. Qed.
Lemma done_S : forall K a a', done K a -> (forall r q, (q <> 2 * K)%nat -> (q <> 2 * K + 1)%nat -> a' r q = a r q) ->
  (forall r, a' r (2 * K)%nat = left_entry r K /\ a' r (2 * K + 1)%nat = right_entry r K) -> done (S K) a'.
Proof.
  intros K a a' D F E r k. destruct (Nat.eq_dec k K) as [->|NE].
  - destruct (E r) as (-> & ->). nat_tests. split; reflexivity.
  - rewrite !F by lia. destruct (D r k) as (-> & ->). nat_tests; split; reflexivity.
Qed.
Lemma fresh : forall K a r, done K a -> a r (2 * K)%nat = 0 /\ a r (2 * K + 1)%nat = 0.
Proof. intros K a r D. destruct (D r K) as (-> & ->). nat_tests. split; reflexivity. Qed.

(** One iteration of the loop *)
Lemma one_layer : forall i l a, (0 < i < m)%nat -> done i a -> exists a', assigns m ((upper_rows ws i ++ lower_rows ws i) ++ l) a = assigns m l a' /\ done (S i) a'.
Proof.
  intros i l a Hi D. unfold upper_rows, lower_rows. cbv zeta. cbn [app]. walk. eexists. split; [reflexivity|]. apply (done_S i a); [exact D|intros; place; reflexivity|].
  intros r. destruct (fresh i a r D) as (Z1 & Z2).
  destruct (Nat.eq_dec r (2 * i - 1)) as [->|N1]; [destruct (entry_up i) as (-> & ->); [lia|]; place; split; reflexivity|].
  destruct (Nat.eq_dec r (2 * i)) as [->|N2]; [destruct (entry_down i) as (-> & ->); [lia|]; place; split; reflexivity|].
  destruct (Nat.eq_dec r (2 * i + 1)) as [->|N3]; [destruct (entry_up_below i) as (-> & ->); [lia|]; place; split; reflexivity|].
  destruct (Nat.eq_dec r (2 * i + 2)) as [->|N4]; [destruct (entry_down_below i) as (-> & ->); [lia|]; place; split; reflexivity|].
  destruct (entry_none r i) as (-> & ->); try lia. place. split; assumption.
Qed.
Lemma loop_layers : forall n i l a, (0 < i)%nat -> (i + n <= m)%nat -> done i a ->
  exists a', assigns m (flat_map (fun i => upper_rows ws i ++ lower_rows ws i) (seq i n) ++ l) a = assigns m l a' /\ done (i + n) a'.
Proof.
  induction n as [|n IH]; intros i l a P H D; [exists a; split; [reflexivity|rewrite Nat.add_0_r; exact D]|].
  cbn [seq flat_map]. rewrite <- app_assoc. destruct (one_layer i (flat_map (fun i => upper_rows ws i ++ lower_rows ws i) (seq (S i) n) ++ l) a ltac:(lia) D) as (a1 & -> & D1).
  destruct (IH (S i) l a1 ltac:(lia) ltac:(lia) D1) as (a2 & -> & D2). exists a2. split; [reflexivity|]. replace (i + S n)%nat with (S i + n)%nat by lia. exact D2.
Qed.
Lemma matrix_done : exists a, matrix m g ws = Answer a /\ done (S m) a.
Proof.
  unfold matrix, steps, top_row, last_row. destruct (Nat.ltb_spec 1 (S m)) as [L|L].
  - replace (2 * S m - 1)%nat with (2 * m + 1)%nat by lia. replace (2 * S m - 2)%nat with (2 * m)%nat by lia.
    unfold first_rows. cbn [app]. walk. rewrite <- app_assoc.
    match goal with |- exists a, assigns m _ ?z = _ /\ _ => assert (done 1 z) as D1 end.
    { apply (done_S 0 zmat); [exact start|intros; cbn in *; place; reflexivity|]. intros r. cbn [Nat.mul Nat.add].
      destruct (Nat.eq_dec r 0) as [->|N0]; [destruct entry_0 as (-> & ->); place; split; reflexivity|].
      destruct (Nat.eq_dec r 1) as [->|N1]; [destruct (entry_up_below 0 ltac:(lia)) as (E1 & E2); cbn [Nat.mul Nat.add] in E1, E2; rewrite E1, E2; place; split; reflexivity|].
      destruct (Nat.eq_dec r 2) as [->|N2]; [destruct (entry_down_below 0 ltac:(lia)) as (E1 & E2); cbn [Nat.mul Nat.add] in E1, E2; rewrite E1, E2; place; split; reflexivity|].
      destruct (entry_none r 0) as (-> & ->); try lia. place. split; reflexivity. }
    destruct (loop_layers (m - 1) 1 (upper_rows ws m ++ [Put (2 * m + 1) (2 * m) (V_p m g ws * La m); Put (2 * m + 1) (2 * m + 1) (V_m m g ws)]) _ ltac:(lia) ltac:(lia) D1) as (a2 & -> & D2).
    replace (1 + (m - 1))%nat with m in D2 by lia. unfold upper_rows. cbv zeta. cbn [app]. walk. eexists. split; [reflexivity|]. apply (done_S m a2); [exact D2|intros; place; reflexivity|].
    intros r. destruct (fresh m a2 r D2) as (Z1 & Z2).
    destruct (Nat.eq_dec r (2 * m - 1)) as [->|N1]; [destruct (entry_up m) as (-> & ->); [lia|]; place; split; reflexivity|].
    destruct (Nat.eq_dec r (2 * m)) as [->|N2]; [destruct (entry_down m) as (-> & ->); [lia|]; place; split; reflexivity|].
    destruct (Nat.eq_dec r (2 * m + 1)) as [->|N3]; [destruct entry_last as (-> & ->); place; split; reflexivity|].
    destruct (entry_none r m) as (-> & ->); try lia. place. split; assumption.
  - assert (m = 0%nat) as E by lia. cbn [app]. walk. eexists. split; [reflexivity|]. rewrite E. cbn [Nat.mul Nat.sub Nat.add]. apply (done_S 0 zmat); [exact start|intros; cbn in *; place; reflexivity|].
    intros r. cbn [Nat.mul Nat.add]. destruct entry_last as (E1 & E2). rewrite E in E1, E2. cbn [Nat.mul Nat.add] in E1, E2.
    destruct (Nat.eq_dec r 0) as [->|N0]; [destruct entry_0 as (-> & ->); place; split; reflexivity|].
    destruct (Nat.eq_dec r 1) as [->|N1]; [rewrite E1, E2; place; split; reflexivity|].
    destruct (entry_none r 0) as (-> & ->); try lia. place. split; reflexivity.
Qed.

(** The light of the amplitudes at the top and the bottom of a layer, without the particular solution *)
Definition up0 (v : vec) (k : nat) : R := v (2 * k)%nat * Xp k + v (2 * k + 1)%nat * La k * Xm k.
Definition dn0 (v : vec) (k : nat) : R := - v (2 * k)%nat * Xm k - v (2 * k + 1)%nat * La k * Xp k.
Definition upL (v : vec) (k : nat) : R := v (2 * k)%nat * La k * Xp k + v (2 * k + 1)%nat * Xm k.
Definition dnL (v : vec) (k : nat) : R := - v (2 * k)%nat * La k * Xm k - v (2 * k + 1)%nat * Xp k.
Definition albedo : R := match g with None => 0 | Some (r, _) => r end.

Lemma total_pairs : forall K (f : nat -> R), total (2 * K) f = total K (fun k => f (2 * k)%nat + f (2 * k + 1)%nat).
Proof. induction K; intros f; [reflexivity|]. replace (2 * S K)%nat with (S (S (2 * K))) by lia. cbn [total]. rewrite IHK. replace (2 * K + 1)%nat with (S (2 * K)) by lia. ring. Qed.
Lemma total_only : forall K (f : nat -> R) j, (j < K)%nat -> (forall k, (k < K)%nat -> k <> j -> f k = 0) -> total K f = f j.
Proof.
  induction K; intros f j Hj Z; [lia|]. cbn [total]. destruct (Nat.eq_dec j K) as [->|NE].
  - rewrite total_zero; [ring|]. intros k Hk. apply Z; lia.
  - rewrite (IHK f j) by (try lia; intros; apply Z; lia). rewrite (Z K) by lia. ring.
Qed.
Lemma total_both : forall K (f : nat -> R) j, (S j < K)%nat -> (forall k, (k < K)%nat -> k <> j -> k <> S j -> f k = 0) -> total K f = f j + f (S j).
Proof.
  induction K; intros f j Hj Z; [lia|]. cbn [total]. destruct (Nat.eq_dec (S j) K) as [<-|NE].
  - rewrite (total_only (S j) f j); [ring|lia|]. intros; apply Z; lia.
  - rewrite (IHK f j) by (try lia; intros; apply Z; lia). rewrite (Z K) by lia. ring.
Qed.
Lemma rows_of : forall a v r, done (S m) a -> mv (order m) a v r = total (S m) (fun k => left_entry r k * v (2 * k)%nat + right_entry r k * v (2 * k + 1)%nat).
Proof.
  intros a v r D. unfold mv, order. rewrite total_pairs. apply total_ext. intros k Hk. destruct (D r k) as (-> & ->). nat_tests. reflexivity.
Qed.
Lemma row_top : forall a v, done (S m) a -> mv (order m) a v 0%nat = dn0 v 0.
Proof.
  intros a v D. rewrite (rows_of a v 0 D). rewrite (total_only (S m) _ 0); [|lia|].
  - destruct entry_0 as (-> & ->). unfold dn0. cbn [Nat.mul Nat.add]. ring.
  - intros k Hk N. destruct (entry_none 0 k) as (-> & ->); try lia. ring.
Qed.
Lemma row_up : forall a v k, done (S m) a -> (k < m)%nat -> mv (order m) a v (2 * k + 1)%nat = upL v k - up0 v (S k).
Proof.
  intros a v k D Hk. rewrite (rows_of a v _ D). rewrite (total_both (S m) _ k); [|lia|].
  - destruct (entry_up_below k Hk) as (-> & ->). destruct (entry_up (S k) ltac:(lia)) as (E1 & E2). replace (2 * S k - 1)%nat with (2 * k + 1)%nat in E1, E2 by lia. rewrite E1, E2.
    unfold upL, up0. ring.
  - intros j Hj N1 N2. destruct (entry_none (2 * k + 1) j) as (-> & ->); try lia. ring.
Qed.
Lemma row_down : forall a v k, done (S m) a -> (k < m)%nat -> mv (order m) a v (2 * k + 2)%nat = dnL v k - dn0 v (S k).
Proof.
  intros a v k D Hk. rewrite (rows_of a v _ D). rewrite (total_both (S m) _ k); [|lia|].
  - destruct (entry_down_below k Hk) as (-> & ->). destruct (entry_down (S k) ltac:(lia)) as (E1 & E2). replace (2 * S k)%nat with (2 * k + 2)%nat in E1 at 1 by lia. replace (2 * S k)%nat with (2 * k + 2)%nat in E2 at 1 by lia. rewrite E1, E2.
    unfold dnL, dn0. ring.
  - intros j Hj N1 N2. destruct (entry_none (2 * k + 2) j) as (-> & ->); try lia. ring.
Qed.
Lemma row_last : forall a v, done (S m) a -> mv (order m) a v (2 * m + 1)%nat = upL v m - albedo * dnL v m.
Proof.
  intros a v D. rewrite (rows_of a v _ D). rewrite (total_only (S m) _ m); [|lia|].
  - destruct entry_last as (-> & ->). unfold upL, dnL, V_p, V_m, albedo. destruct g as [(r & r0)|]; ring.
  - intros k Hk N. destruct (entry_none (2 * m + 1) k) as (-> & ->); try lia. ring.
Qed.

(** The right hand side *)
Definition Fp1 k := w_Fp (ws k) * t_atran d k.
Definition Fm1 k := w_Fm (ws k) * t_atran d k.
Lemma fold_rows : forall n b, let b' := fold_left (fun b i => let ii := (2 * i - 1)%nat in
      vset (ii + 1) (w_Fm (ws i) - w_Fm (ws (i - 1)%nat) * t_atran d (i - 1)%nat)
        (vset ii (w_Fp (ws i) - w_Fp (ws (i - 1)%nat) * t_atran d (i - 1)%nat) b)) (seq 1 n) b in
  b' 0%nat = b 0%nat /\ forall k, (k < n)%nat -> b' (2 * k + 1)%nat = w_Fp (ws (S k)) - Fp1 k /\ b' (2 * k + 2)%nat = w_Fm (ws (S k)) - Fm1 k.
Proof.
  induction n as [|n IH]; intros b; [split; [reflexivity|intros; lia]|]. cbv zeta. rewrite seq_S, fold_left_app. cbn [fold_left]. specialize (IH b). cbv zeta in IH. destruct IH as (I0 & IK).
  match goal with |- context [fold_left ?f ?l ?x] => set (b1 := fold_left f l x) in * end. unfold vset. split.
  - nat_tests. exact I0.
  - intros k Hk. destruct (Nat.eq_dec k n) as [->|NE].
    + replace (1 + n - 1)%nat with n by lia. nat_tests. unfold Fp1, Fm1. replace (1 + n)%nat with (S n) by lia. split; reflexivity.
    + nat_tests. apply IK. lia.
Qed.
Hypothesis dull : solar = false -> forall k, w_Fp (ws k) = 0 /\ w_Fm (ws k) = 0.
Lemma rhs_rows : rhs d solar m g ws 0%nat = - w_Fm (ws 0%nat) /\
  (forall k, (k < m)%nat -> rhs d solar m g ws (2 * k + 1)%nat = w_Fp (ws (S k)) - Fp1 k /\ rhs d solar m g ws (2 * k + 2)%nat = w_Fm (ws (S k)) - Fm1 k) /\
  rhs d solar m g ws (2 * m + 1)%nat = glint d solar m g + albedo * Fm1 m - Fp1 m.
Proof.
  unfold rhs. destruct solar eqn:So.
  - destruct (fold_rows m (vset 0 (- w_Fm (ws 0%nat)) zvec)) as (F0 & FK). cbv zeta in F0, FK. cbv zeta. 
    match goal with |- context [fold_left ?f ?l ?x] => set (b1 := fold_left f l x) in * end. unfold vset at 1 2 3 4. refine (conj _ (conj _ _)).
    + nat_tests. rewrite F0. reflexivity.
    + intros k Hk. nat_tests. apply FK. exact Hk.
    + nat_tests. unfold glint, albedo, Fp1, Fm1. destruct g as [(r & r0)|]; ring.
  - pose proof (dull eq_refl) as Z. unfold zvec, Fp1, Fm1, glint. refine (conj _ (conj _ _)).
    + destruct (Z 0%nat) as (_ & ->). ring.
    + intros k Hk. destruct (Z (S k)) as (-> & ->). destruct (Z k) as (-> & ->). split; ring.
    + destruct (Z m) as (-> & ->). destruct g as [(r & r0)|]; ring.
Qed.
End Rows.
