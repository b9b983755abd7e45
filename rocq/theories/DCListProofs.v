(** Proof support for C34. *)
From Coq Require Import List Bool Arith Lia Permutation.
From Verif Require Import DCListModel DCListSpec.
Import ListNotations.

(* ------------------------------------------------------------------------- *)
(** * Consecutive pairs and rings                                             *)

Fixpoint consec (l : list nat) : list (nat * nat) :=
  match l with x :: ((y :: _) as r) => (x, y) :: consec r | _ => [] end.
Definition circ (l : list nat) : list (nat * nat) := match l with [] => [] | x :: _ => consec (l ++ [x]) end.

Lemma consec_app l1 a l2 : consec (l1 ++ a :: l2) = consec (l1 ++ [a]) ++ consec (a :: l2).
Proof.
  induction l1 as [|x l1 IH]; [reflexivity|]. destruct l1 as [|y l1]; [reflexivity|].
  change ((x, y) :: consec ((y :: l1) ++ a :: l2) = ((x, y) :: consec ((y :: l1) ++ [a])) ++ consec (a :: l2)).
  now rewrite IH.
Qed.
Lemma consec_in l x y : In (x, y) (consec l) -> In x l /\ In y l.
Proof.
  induction l as [|a [|b l] IH]; cbn [consec]; try contradiction. intros [E|H].
  - injection E as <- <-. cbn. auto.
  - destruct (IH H). cbn in *. tauto.
Qed.
(** First components come before the last element, second components behind the first. *)
Lemma consec_fst l a x y : In (x, y) (consec (l ++ [a])) -> In x l.
Proof.
  induction l as [|b l IH]; [contradiction|]. destruct l as [|c l].
  - intros [E|[]]. injection E as <- <-. now left.
  - change (In (x, y) ((b, c) :: consec ((c :: l) ++ [a])) -> In x (b :: c :: l)).
    intros [E|H]; [injection E as <- <-; now left|right; auto].
Qed.
Lemma consec_snd l a x y : In (x, y) (consec (a :: l)) -> In y l.
Proof.
  revert a. induction l as [|b l IH]; intros a; [contradiction|].
  intros [E|H]; [injection E as <- <-; now left|right; eauto].
Qed.
Lemma circ_rot l1 l2 p : In p (circ (l1 ++ l2)) <-> In p (circ (l2 ++ l1)).
Proof.
  destruct l1 as [|x l1]; [now rewrite app_nil_r|]. destruct l2 as [|y l2]; [now rewrite app_nil_r|].
  assert (A : forall x l1 y l2, circ ((x :: l1) ++ y :: l2) = consec (x :: l1 ++ [y]) ++ consec (y :: l2 ++ [x])).
  { clear. intros. unfold circ. cbn [app].
    change (consec ((x :: l1 ++ y :: l2) ++ [x]) = consec ((x :: l1) ++ [y]) ++ consec (y :: l2 ++ [x])).
    replace ((x :: l1 ++ y :: l2) ++ [x]) with ((x :: l1) ++ y :: (l2 ++ [x])); [apply consec_app|].
    cbn. now rewrite <- app_assoc. }
  rewrite !A, !in_app_iff. tauto.
Qed.
Lemma circ_last l p : circ (l ++ [p]) = match l with [] => [(p, p)] | x :: _ => consec (l ++ [p]) ++ [(p, x)] end.
Proof.
  destruct l as [|x l]; [reflexivity|]. unfold circ. cbn [app].
  change (consec (((x :: l) ++ [p]) ++ [x]) = consec ((x :: l) ++ [p]) ++ [(p, x)]).
  rewrite <- app_assoc. exact (consec_app (x :: l) p [x]).
Qed.

Lemma succ_in l : NoDup l -> forall p q, succ_of p l = Some q <-> In (p, q) (circ l).
Proof.
  intros ND p q. destruct l as [|x l]; [cbn; split; [discriminate|contradiction]|].
  unfold succ_of, circ. generalize x at 2 4 as w. revert ND.
  generalize (x :: l). clear x l. induction l as [|x l IH]; intros ND w; [cbn; split; [discriminate|contradiction]|].
  cbn [after]. inversion ND as [|? ? NI ND']; subst. destruct (Nat.eqb_spec x p) as [->|NE].
  - destruct l as [|y l].
    + cbn. split; [intro H; injection H as ->; auto|intros [E|[]]; injection E as ->; auto].
    + cbn [app consec]. split; [intro H; injection H as ->; now left|].
      intros [E|H]; [injection E as ->; reflexivity|]. exfalso. apply NI.
      change (In (p, q) (consec ((y :: l) ++ [w]))) in H. now apply consec_fst in H.
  - rewrite IH by auto. destruct l as [|y l].
    + cbn. split; [contradiction|]. intros [E|[]]. injection E as -> _. easy.
    + cbn [app consec]. split; [now right|]. intros [E|H]; [injection E as -> _; easy|exact H].
Qed.

Lemma consec_rev l x y : In (x, y) (consec l) <-> In (y, x) (consec (rev l)).
Proof.
  assert (A : forall l x y, In (x, y) (consec l) -> In (y, x) (consec (rev l))).
  { clear. induction l as [|a [|b l] IH]; intros x y; cbn [consec]; try contradiction.
    intros [E|H].
    - injection E as <- <-. cbn [rev]. rewrite <- app_assoc. cbn [app]. rewrite consec_app. apply in_or_app. right. now left.
    - specialize (IH _ _ H). change (rev (a :: b :: l)) with ((rev (b :: l)) ++ [a]).
      cbn [rev] in *. rewrite <- app_assoc. cbn [app]. rewrite consec_app. apply in_or_app. now left. }
  split; [apply A|]. intro H. apply A in H. now rewrite rev_involutive in H.
Qed.
Lemma circ_rev l x y : In (x, y) (circ l) <-> In (y, x) (circ (rev l)).
Proof.
  destruct l as [|a l]; [reflexivity|]. cbn [circ]. rewrite consec_rev. rewrite rev_app_distr. cbn [rev app].
  destruct (rev l) as [|b r] eqn:E; [reflexivity|]. cbn [app circ].
  change (In (y, x) (consec (a :: (b :: r) ++ [a])) <-> In (y, x) (consec ((b :: r ++ [a]) ++ [b]))).
  change (consec (a :: (b :: r) ++ [a])) with ((a, b) :: consec ((b :: r) ++ [a])).
  replace ((b :: r ++ [a]) ++ [b]) with ((b :: r) ++ a :: [b]) by (cbn; now rewrite <- app_assoc).
  rewrite (consec_app (b :: r) a [b]), in_app_iff. cbn [In consec]. tauto.
Qed.
Lemma pred_in l : NoDup l -> forall p q, pred_of p l = Some q <-> In (q, p) (circ l).
Proof.
  intros ND p q. unfold pred_of. rewrite succ_in by now apply NoDup_rev. symmetry. apply circ_rev.
Qed.
Lemma after_some p l w : In p l -> exists q, after p l w = Some q.
Proof.
  induction l as [|x l IH]; [contradiction|]. intro H. cbn. destruct (Nat.eqb_spec x p); [eauto|].
  apply IH. destruct H; [easy|auto].
Qed.
Lemma after_none p l w : ~ In p l -> after p l w = None.
Proof.
  induction l as [|x l IH]; intro H; [reflexivity|]. cbn. destruct (Nat.eqb_spec x p) as [->|]; [exfalso; apply H; now left|].
  apply IH. intro. apply H. now right.
Qed.
