From Coq Require Import ZArith List Bool Lia Reals Lra SpecFloat Arith.
From Verif Require Import Dbl DblReal HandleSpec UtausModel.
Import ListNotations.
Open Scope Z_scope.

(* ---- order ---- *)
Lemma cmp_swap : forall x y, SFcompare y x = match SFcompare x y with Some c => Some (CompOpp c) | None => None end.
Proof.
  intros [s|s| |s m e] [s'|s'| |s' m' e']; cbn; try reflexivity; try destruct s; try destruct s'; try reflexivity;
  rewrite (Z.compare_antisym e' e); destruct (Z.compare e' e); cbn; try reflexivity;
  rewrite (Pos.compare_cont_antisym m m' Eq); cbn; destruct (Pos.compare_cont Eq m m'); reflexivity.
Qed.
Lemma dlt_dle : forall x y, dlt x y = true -> dle x y = true.
Proof. intros x y. unfold dlt, dle, SFltb, SFleb. destruct (SFcompare x y) as [[]|]; auto; discriminate. Qed.
Lemma deq_dle : forall x y, deq x y = true -> dle x y = true /\ dle y x = true.
Proof.
  intros x y. unfold deq, dle, SFeqb, SFleb. rewrite (cmp_swap x y).
  destruct (SFcompare x y) as [[]|]; cbn; auto; discriminate.
Qed.
Lemma dle_cases : forall x y, dle x y = true -> dlt x y = true \/ deq x y = true.
Proof. intros x y. unfold dlt, dle, deq, SFltb, SFleb, SFeqb. destruct (SFcompare x y) as [[]|]; auto; discriminate. Qed.
(** A failed [u >= t] between numbers is [u < t]. *)
Lemma not_dge : forall u t, u <> S754_nan -> t <> S754_nan -> dge u t = false -> dlt u t = true.
Proof.
  intros u t U T. unfold dge, dlt, SFleb, SFltb. rewrite (cmp_swap u t).
  destruct (SFcompare u t) as [[]|] eqn:E; cbn; auto; try discriminate.
  exfalso. destruct u as [|[]| |[]], t as [|[]| |[]]; cbn in E; congruence.
Qed.
Lemma dge_dle : forall u t, dge u t = dle t u.
Proof. reflexivity. Qed.

Lemma dle_trans : forall x y z, valid x -> valid y -> valid z -> dle x y = true -> dle y z = true -> dle x z = true.
Proof.
  intros x y z X Y Z P Q.
  assert (forall v, finite v \/ v = S754_nan \/ v = S754_infinity true \/ v = S754_infinity false) as K
    by (intros [s|[]| |s m e]; cbn; auto).
  destruct (K x) as [FX|[->|[->| ->]]]; [|discriminate P| |].
  - destruct (K y) as [FY|[->|[->| ->]]].
    + destruct (K z) as [FZ|[->|[->| ->]]].
      * apply dle_R in P, Q; auto. apply dle_R; auto. lra.
      * destruct y as [|[]| |[]]; discriminate Q.
      * destruct y as [|[]| |[]]; try discriminate Q; contradiction FY.
      * destruct x as [|[]| |[]]; try contradiction FX; reflexivity.
    + destruct x as [|[]| |[]]; discriminate P.
    + destruct x as [|[]| |[]]; try discriminate P; contradiction FX.
    + destruct z as [|[]| |[]]; try discriminate Q; destruct x as [|[]| |[]]; try contradiction FX; reflexivity.
  - destruct (K z) as [FZ|[->|[->| ->]]]; try reflexivity.
    + destruct z as [|[]| |[]]; try contradiction FZ; reflexivity.
    + destruct y as [|[]| |[]]; discriminate Q.
  - destruct (K y) as [FY|[->|[->| ->]]].
    + destruct y as [|[]| |[]]; try contradiction FY; discriminate P.
    + discriminate P.
    + discriminate P.
    + destruct z as [|[]| |[]]; try discriminate Q; reflexivity.
Qed.

(* ---- cumulative depths ---- *)
Lemma cumulate_nth : forall ls a k, (k <= length ls)%nat -> nth_error (cumulate a ls) k = Some (fold_left dadd (firstn k ls) a).
Proof.
  induction ls as [|x ls IH]; intros a k L; cbn in *.
  - assert (k = 0%nat) as -> by lia. reflexivity.
  - destruct k as [|k]; [reflexivity|]. cbn. apply IH. lia.
Qed.
Lemma cumulate_len : forall ls a, length (cumulate a ls) = S (length ls).
Proof. induction ls as [|x ls IH]; intros a; cbn; [reflexivity|now rewrite IH]. Qed.
Lemma cumulate_last : forall ls a d, last (cumulate a ls) d = fold_left dadd ls a.
Proof.
  induction ls as [|x ls IH]; intros a d; [reflexivity|]. cbn [cumulate fold_left]. rewrite <- (IH (dadd a x) d).
  destruct ls; reflexivity.
Qed.

Section Place.
Variables (ls : list dbl).
Let tt := cumulate d_zero ls.
Let n := length ls.
Let at_ k := fold_left dadd (firstn k ls) d_zero.
Let total := last tt d_zero.
Hypothesis Pos_ : (0 < n)%nat.

Lemma total_eq : total = fold_left dadd ls d_zero.
Proof. apply cumulate_last. Qed.
Lemma at_n : at_ n = fold_left dadd ls d_zero.
Proof. unfold at_, n. now rewrite firstn_all. Qed.
Lemma tt_nth : forall k, (k <= n)%nat -> nth_error tt k = Some (at_ k).
Proof. intros. apply cumulate_nth. exact H. Qed.

Lemma skipn_nth : forall A (l : list A) k x, nth_error l k = Some x -> skipn k l = x :: skipn (S k) l.
Proof. induction l as [|y l IH]; intros [|k] x H; cbn in *; try discriminate; [now injection H as ->|now apply IH]. Qed.

(** The search ends at the first entry the depth is not at or beyond. *)
Lemma search_ok : forall u m ii, (ii + m = n)%nat -> dge u (at_ n) = false ->
  exists jj, search u ii (skipn ii tt) = Some jj /\ (ii <= jj <= n)%nat /\ dge u (at_ jj) = false /\
    forall k, (ii <= k < jj)%nat -> dge u (at_ k) = true.
Proof.
  intros u m. induction m as [|m IH]; intros ii E B.
  - assert (ii = n) as -> by lia. rewrite (skipn_nth _ _ _ _ (tt_nth n (le_n _))). cbn [search]. rewrite B.
    exists n. repeat split; auto; intros; lia.
  - rewrite (skipn_nth _ _ _ _ (tt_nth ii ltac:(lia))). cbn [search]. destruct (dge u (at_ ii)) eqn:G.
    + destruct (IH (S ii) ltac:(lia) B) as (jj & S1 & S2 & S3 & S4). exists jj. repeat split; auto; try lia.
      intros k K. destruct (Nat.eq_dec k ii) as [->|]; auto. apply S4. lia.
    + exists ii. repeat split; auto; intros; lia.
Qed.

Definition located (u : dbl) (p : place) : Prop :=
  exists k, fst p = Z.of_nat k /\ (k < n)%nat /\ snd p = dsub u (at_ k) /\
    dge u (at_ k) = true /\ (dge u (at_ (S k)) = false \/ S k = n /\ deq u (at_ n) = true).
(** In bounds, without the ordering of the depths. *)
Definition inside (u : dbl) (p : place) : Prop := exists k, fst p = Z.of_nat k /\ (k < n)%nat /\ snd p = dsub u (at_ k).

Lemma put_at : forall u k, (k <= n)%nat -> put tt u (S k) = Some (Z.of_nat k, dsub u (at_ k)).
Proof. intros. cbn. now rewrite tt_nth. Qed.

(** Admissible outputs from entry [ii] on: [lo] is the previous output. *)
Hypothesis Vt : forall k, (k <= n)%nat -> valid (at_ k).
Fixpoint chain (lo : dbl) (us : list dbl) : Prop :=
  match us with
  | [] => True
  | u :: us' => dle lo u = true /\ dgt u (at_ n) = false /\ valid u /\
      match us' with [] => True | v :: _ => dlt u v = true end /\ chain u us'
  end.

Lemma not_gt_eq : forall u t, dgt u t = false -> deq u t = false -> dge u t = false.
Proof.
  intros u t. unfold dgt, deq, dge, SFltb, SFeqb, SFleb. rewrite (cmp_swap u t).
  destruct (SFcompare u t) as [[]|]; cbn; congruence.
Qed.

(** An output equal to the total depth is followed by none. *)
Lemma at_total_last : forall u us lo, chain lo (u :: us) -> deq u (at_ n) = true -> us = [].
Proof.
  intros u [|v us] lo C E; [reflexivity|]. exfalso. destruct C as (_ & _ & Vu & L & (D & G & Vv & _)).
  destruct (deq_dle _ _ E) as [E1 E2].
  (* at_n <= u < v and not v > at_n *)
  assert (dle v (at_ n) = true \/ SFcompare (at_ n) v = None) as K.
  { unfold dgt, SFltb in G. unfold dle, SFleb. rewrite (cmp_swap (at_ n) v). destruct (SFcompare (at_ n) v) as [[]|]; cbn; auto; discriminate. }
  destruct K as [K|K].
  - assert (dle v u = true) as H by (apply (dle_trans v (at_ n) u); auto; apply Vt; lia).
    revert L H. unfold dlt, dle, SFltb, SFleb. rewrite (cmp_swap u v). destruct (SFcompare u v) as [[]|]; cbn; congruence.
  - revert L E K. unfold dlt, deq, SFltb, SFeqb. destruct u as [|[]| |[]], v as [|[]| |[]], (at_ n) as [|[]| |[]]; cbn; congruence.
Qed.

Lemma first_ok : forall us lo ii, chain lo us -> (ii <= n)%nat ->
  match ii with O => dge lo (at_ 0) = true | S k => dge lo (at_ k) = true end -> valid lo ->
  exists r, first_pass tt total us ii = Some r /\
    Forall2 (fun u p => match p with None => deq u (at_ n) = true | Some p => located u p end) us r.
Proof.
  induction us as [|u us IH]; intros lo ii C L B Vl; [exists []; split; [reflexivity|constructor]|].
  cbn [first_pass].
  replace total with (at_ n) by (rewrite total_eq; apply at_n). destruct (deq u (at_ n)) eqn:E.
  - rewrite (at_total_last _ _ _ C E). exists [None]. split; [reflexivity|repeat constructor; auto].
  - destruct C as (C1 & C2 & C3 & C4 & C5).
    destruct (search_ok u (n - ii) ii ltac:(lia) (not_gt_eq _ _ C2 E)) as (jj & S1 & S2 & S3 & S4).
    rewrite S1. destruct jj as [|k].
    { exfalso. assert (ii = 0%nat) as -> by lia. assert (dge u (at_ 0) = true) by (apply (dle_trans (at_ 0) lo u); auto; apply Vt; lia). congruence. }
    rewrite put_at by lia.
    assert (dge u (at_ k) = true) as G.
    { destruct (Nat.eq_dec (S k) ii) as [<-|N]; [|apply S4; lia]. apply (dle_trans (at_ k) lo u); auto. apply Vt; lia. }
    destruct (IH u (S k) C5 ltac:(lia) G C3) as (r & R1 & R2). replace total with (at_ n) in R1 by (rewrite total_eq; apply at_n). rewrite R1.
    eexists. split; [reflexivity|]. constructor; auto. exists k. repeat split; auto; lia.
Qed.
Lemma second_ok : forall us r, dle (at_ (n - 1)) (at_ n) = true \/ (forall u, In u us -> deq u (at_ n) = false) ->
  (forall u, In u us -> valid u) ->
  Forall2 (fun u p => match p with None => deq u (at_ n) = true | Some p => located u p end) us r ->
  exists q, second_pass tt total us r = Some q /\ Forall2 (fun u p => exists x, p = Some x /\ located u x) us q.
Proof.
  intros us r M V F. induction F as [|u p us r H F IH]; [exists []; split; [reflexivity|constructor]|].
  destruct IH as (q & Q1 & Q2).
  { destruct M as [M|M]; [auto|right; intros; apply M; right; auto]. }
  { intros; apply V; right; auto. }
  cbn [second_pass]. rewrite Q1.
  replace total with (at_ n) in * by (rewrite total_eq; apply at_n).
  destruct (deq u (at_ n)) eqn:E.
  - replace (length tt - 1)%nat with (S (n - 1)) by (unfold tt; rewrite cumulate_len; fold n; lia).
    rewrite put_at by lia. eexists. split; [reflexivity|]. constructor; auto. eexists. split; [reflexivity|].
    exists (n - 1)%nat. refine (conj _ (conj _ (conj _ (conj _ _)))); auto; [lia| |right; split; [lia|auto]].
    destruct M as [M|M]; [|rewrite M in E by (left; auto); discriminate].
    apply (dle_trans _ (at_ n)); try (apply Vt; lia); auto; [apply V; left; auto|]. now apply deq_dle.
  - destruct p as [p|]; [|congruence]. eexists. split; [reflexivity|]. constructor; auto. exists p. auto.
Qed.
End Place.

(* ---- depths that only grow ---- *)
Lemma fold_valid : forall ls a, valid a -> (forall x, In x ls -> valid x) -> valid (fold_left dadd ls a).
Proof. induction ls as [|x ls IH]; intros a A V; cbn; auto. apply IH; [apply dadd_valid; auto; apply V; left; auto|intros; apply V; right; auto]. Qed.
Lemma fold_nonneg : forall ls a, valid a -> dle d_zero a = true -> (forall x, In x ls -> valid x /\ dle d_zero x = true) ->
  dle d_zero (fold_left dadd ls a) = true.
Proof.
  induction ls as [|x ls IH]; intros a A P V; cbn; auto. destruct (V x (or_introl eq_refl)).
  apply IH; [apply dadd_valid; auto|apply dadd_grows; auto|intros; apply V; right; auto].
Qed.
Lemma fold_step : forall ls k, (k < length ls)%nat -> (forall x, In x ls -> valid x /\ dle d_zero x = true) ->
  dle (fold_left dadd (firstn k ls) d_zero) (fold_left dadd (firstn (S k) ls) d_zero) = true.
Proof.
  intros ls k L V. destruct (nth_error ls k) as [x|] eqn:E; [|apply nth_error_None in E; lia].
  assert (firstn (S k) ls = firstn k ls ++ [x]) as ->.
  { clear -E. revert k E. induction ls as [|y ls IH]; intros [|k] E; cbn in *; try discriminate; [now injection E as ->|]. f_equal. now apply IH. }
  rewrite fold_left_app. cbn. apply nth_error_In in E as I.
  assert (forall y, In y (firstn k ls) -> valid y /\ dle d_zero y = true) as W.
  { intros y Y. apply V. rewrite <- (firstn_skipn k ls). apply in_or_app. auto. }
  destruct (V x I). apply dadd_grows; auto.
  - apply fold_valid; [reflexivity|intros; now apply W].
  - apply fold_nonneg; [reflexivity|reflexivity|auto].
Qed.


Lemma good_chain : forall ls us lo, valid lo ->
  (forall x, In x us -> valid x /\ x <> S754_nan) ->
  (match us with [] => True | u :: _ => dle lo u = true end) ->
  (forall u, In u us -> dle u (fold_left dadd ls d_zero) = true) ->
  (forall i u v, nth_error us i = Some u -> nth_error us (S i) = Some v -> dlt u v = true) ->
  chain ls lo us.
Proof.
  intros ls us. induction us as [|u us IH]; intros lo Vl V L B S; [exact Logic.I|]. cbn [chain].
  destruct (V u (or_introl eq_refl)) as [Vu _].
  assert (match us with [] => True | v :: _ => dlt u v = true end) as N.
  { destruct us as [|v us]; [exact Logic.I|]. apply (S 0%nat u v); reflexivity. }
  refine (conj L (conj _ (conj Vu (conj N _)))).
  - rewrite firstn_all. specialize (B u (or_introl eq_refl)). revert B.
    unfold dle, dgt, SFleb, SFltb. rewrite (cmp_swap u _). destruct (SFcompare u _) as [[]|]; cbn; congruence.
  - apply IH; auto.
    + intros; apply V; right; auto.
    + destruct us as [|v us]; [exact Logic.I|]. now apply dlt_dle.
    + intros; apply B; right; auto.
    + intros i x y X Y. apply (S (Datatypes.S i)); auto.
Qed.
Lemma nan_le : forall x, dle d_zero x = true -> x <> S754_nan.
Proof. intros x H ->. discriminate H. Qed.
