(** The comparison operators on doubles as a lexicographic order on integers; every double
    except NaN has a key.  No assumption that the float is normalised. *)
From Coq Require Import ZArith Bool Lia SpecFloat.
From Verif Require Import Dbl.
Open Scope Z_scope.

Definition key (x : dbl) : Z * Z * Z :=
  match x with
  | S754_infinity true => (-2, 0, 0)
  | S754_finite true m e => (-1, - e, Z.neg m)
  | S754_zero _ => (0, 0, 0)
  | S754_finite false m e => (1, e, Z.pos m)
  | S754_infinity false => (2, 0, 0)
  | S754_nan => (0, 0, 0)
  end.
Definition num (x : dbl) : bool := match x with S754_nan => false | _ => true end.
Definition klt (a b : Z * Z * Z) : Prop :=
  let '(a1, a2, a3) := a in let '(b1, b2, b3) := b in a1 < b1 \/ a1 = b1 /\ (a2 < b2 \/ a2 = b2 /\ a3 < b3).
Definition keq (a b : Z * Z * Z) : Prop :=
  let '(a1, a2, a3) := a in let '(b1, b2, b3) := b in a1 = b1 /\ a2 = b2 /\ a3 = b3.

Lemma cmp_key : forall x y,
  match SFcompare x y with
  | Some Lt => num x = true /\ num y = true /\ klt (key x) (key y)
  | Some Eq => num x = true /\ num y = true /\ keq (key x) (key y)
  | Some Gt => num x = true /\ num y = true /\ klt (key y) (key x)
  | None => num x = false \/ num y = false
  end.
Proof.
  intros [s|[]| |[] m e] [s'|[]| |[] m' e']; cbn; auto; try (repeat split; cbn; lia).
  - destruct (Z.compare_spec e e'); cbn.
    + change (Pos.compare_cont Eq m m') with (Pos.compare m m'). destruct (Pos.compare_spec m m'); cbn; repeat split; lia.
    + repeat split; lia.
    + repeat split; lia.
  - destruct (Z.compare_spec e e'); cbn.
    + change (Pos.compare_cont Eq m m') with (Pos.compare m m'). destruct (Pos.compare_spec m m'); cbn; repeat split; lia.
    + repeat split; lia.
    + repeat split; lia.
Qed.

Ltac kdes :=
  repeat match goal with
  | H : context [key ?x] |- _ => let p := fresh in let q := fresh in let r := fresh in
      destruct (key x) as [[p q] r]
  | |- context [key ?x] => let p := fresh in let q := fresh in let r := fresh in
      destruct (key x) as [[p q] r]
  end.

Lemma dlt_key : forall x y, dlt x y = true <-> num x = true /\ num y = true /\ klt (key x) (key y).
Proof.
  intros x y. unfold dlt, SFltb. assert (K := cmp_key x y). destruct (SFcompare x y) as [[]|].
  - split; [discriminate|]. intros (_ & _ & L). destruct K as (_ & _ & K). unfold klt, keq in *. kdes. exfalso. lia.
  - tauto.
  - split; [discriminate|]. intros (_ & _ & L). destruct K as (_ & _ & K). unfold klt, keq in *. kdes. exfalso. lia.
  - split; [discriminate|]. intros (A & B & _). destruct K; congruence.
Qed.
Lemma dle_key : forall x y, dle x y = true <-> num x = true /\ num y = true /\ ~ klt (key y) (key x).
Proof.
  intros x y. unfold dle, SFleb. assert (K := cmp_key x y). destruct (SFcompare x y) as [[]|].
  - split; auto. intros _. destruct K as (A & B & K). refine (conj A (conj B _)). unfold klt, keq in *. kdes. lia.
  - split; auto. intros _. destruct K as (A & B & K). refine (conj A (conj B _)). unfold klt in *. kdes. lia.
  - split; [discriminate|]. intros (_ & _ & L). destruct K as (_ & _ & K). contradiction.
  - split; [discriminate|]. intros (A & B & _). destruct K; congruence.
Qed.
Lemma deq_key : forall x y, deq x y = true <-> num x = true /\ num y = true /\ keq (key x) (key y).
Proof.
  intros x y. unfold deq, SFeqb. assert (K := cmp_key x y). destruct (SFcompare x y) as [[]|].
  - tauto.
  - split; [discriminate|]. intros (_ & _ & L). destruct K as (_ & _ & K). unfold klt, keq in *. kdes. exfalso. lia.
  - split; [discriminate|]. intros (_ & _ & L). destruct K as (_ & _ & K). unfold klt, keq in *. kdes. exfalso. lia.
  - split; [discriminate|]. intros (A & B & _). destruct K; congruence.
Qed.

(** [klt] is a strict total order with [keq] as equality. *)
Lemma klt_trans : forall a b c, klt a b -> klt b c -> klt a c.
Proof. intros [[? ?] ?] [[? ?] ?] [[? ?] ?]. unfold klt. lia. Qed.
Lemma klt_irrefl : forall a, ~ klt a a.
Proof. intros [[? ?] ?]. unfold klt. lia. Qed.
Lemma klt_total : forall a b, klt a b \/ a = b \/ klt b a.
Proof.
  intros [[a b] c] [[a' b'] c']. unfold klt.
  destruct (Z.lt_trichotomy a a') as [|[->|]]; [lia| |lia].
  destruct (Z.lt_trichotomy b b') as [|[->|]]; [lia| |lia].
  destruct (Z.lt_trichotomy c c') as [|[->|]]; [lia|auto|lia].
Qed.
Lemma keq_eq : forall a b, keq a b <-> a = b.
Proof. intros [[? ?] ?] [[? ?] ?]. unfold keq. split; [intros (-> & -> & ->); reflexivity|intros E; injection E; auto]. Qed.

Lemma dlt_trans : forall x y z, dlt x y = true -> dlt y z = true -> dlt x z = true.
Proof. intros x y z. rewrite !dlt_key. intros (A & B & C) (D & E & F). eauto using klt_trans. Qed.
Lemma dle_dlt_trans : forall x y z, dle x y = true -> dlt y z = true -> dlt x z = true.
Proof.
  intros x y z. rewrite dle_key, !dlt_key. intros (A & B & C) (D & E & F). refine (conj A (conj E _)).
  destruct (klt_total (key x) (key y)) as [H|[->|H]]; eauto using klt_trans; contradiction.
Qed.
Lemma dlt_dle_trans : forall x y z, dlt x y = true -> dle y z = true -> dlt x z = true.
Proof.
  intros x y z. rewrite dle_key, !dlt_key. intros (A & B & C) (D & E & F). refine (conj A (conj E _)).
  destruct (klt_total (key y) (key z)) as [H|[<-|H]]; eauto using klt_trans; contradiction.
Qed.
Lemma dle_trans : forall x y z, dle x y = true -> dle y z = true -> dle x z = true.
Proof.
  intros x y z. rewrite !dle_key. intros (A & B & C) (D & E & F). refine (conj A (conj E _)). intros L.
  destruct (klt_total (key x) (key y)) as [H|[H|H]].
  - apply F. eapply klt_trans; eauto.
  - rewrite H in L. contradiction.
  - contradiction.
Qed.
Lemma dlt_dle : forall x y, dlt x y = true -> dle x y = true.
Proof.
  intros x y. rewrite dle_key, dlt_key. intros (A & B & C). refine (conj A (conj B _)). intros L.
  apply (klt_irrefl (key x)). eauto using klt_trans.
Qed.
Lemma dle_total : forall x y, num x = true -> num y = true -> dle x y = true \/ dlt y x = true.
Proof.
  intros x y X Y. rewrite dle_key, dlt_key. destruct (klt_total (key x) (key y)) as [H|[H|H]]; auto; left; refine (conj X (conj Y _)).
  - intros L. apply (klt_irrefl (key x)). eauto using klt_trans.
  - rewrite H. apply klt_irrefl.
Qed.
Lemma not_dgt_dle : forall x y, num x = true -> num y = true -> dgt x y = false -> dle x y = true.
Proof. intros x y X Y H. destruct (dle_total x y X Y) as [|K]; auto. unfold dgt in H. unfold dlt in K. congruence. Qed.
Lemma not_dlt_dle : forall x y, num x = true -> num y = true -> dlt x y = false -> dle y x = true.
Proof. intros x y X Y H. destruct (dle_total y x Y X) as [|K]; auto. congruence. Qed.
Lemma dle_not_dlt : forall x y, dle x y = true -> dlt y x = false.
Proof.
  intros x y H. destruct (dlt y x) eqn:E; auto. apply dle_key in H. apply dlt_key in E. destruct H as (_ & _ & H), E as (_ & _ & E). contradiction.
Qed.
Lemma dlt_num : forall x y, dlt x y = true -> num x = true /\ num y = true.
Proof. intros x y H. apply dlt_key in H. tauto. Qed.
Lemma dle_num : forall x y, dle x y = true -> num x = true /\ num y = true.
Proof. intros x y H. apply dle_key in H. tauto. Qed.
Lemma dle_refl : forall x, num x = true -> dle x x = true.
Proof. intros x H. apply dle_key. refine (conj H (conj H _)). apply klt_irrefl. Qed.
