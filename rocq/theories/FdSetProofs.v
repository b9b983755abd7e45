(** Proofs about the finite-difference settings. *)
From Coq Require Import Reals ZArith Bool List Lia Classical.
From Verif Require Import Base HandleModel HandleWp FdSetModel FdSetSpec.
Import ListNotations.
Open Scope Z_scope.

Lemma range_iff i n : in_range i n = true <-> 0 <= i < n.
Proof. unfold in_range. rewrite andb_true_iff. lia. Qed.
Lemma seq_iff i a n : In i (zseq a n) <-> a <= i < n.
Proof.
  unfold zseq. rewrite in_map_iff. split.
  - intros (k & <- & H). apply in_seq in H. lia.
  - intros H. exists (Z.to_nat (i - a)). split; [lia|]. apply in_seq. lia.
Qed.

Lemma fold_store_none ws : forall m c, (forall w, In w ws -> fst w <> c) -> fold_left store ws m c = m c.
Proof.
  induction ws as [|w ws IH]; intros m c H; [reflexivity|]. cbn [fold_left]. rewrite IH by (intros; apply H; now right).
  unfold store. destruct (cell_eq c (fst w)) as [e|]; [|reflexivity]. exfalso. now apply (H w (or_introl eq_refl)).
Qed.
Lemma fold_store_some ws : forall m c x, (forall w, In w ws -> fst w = c -> snd w = x) -> In (c, x) ws -> fold_left store ws m c = Some x.
Proof.
  induction ws as [|w ws IH]; intros m c x H I1; [destruct I1|]. cbn [fold_left].
  destruct (in_dec cell_eq c (map fst ws)) as [I2|I2].
  - apply IH; [intros; apply H; [now right|assumption]|]. apply in_map_iff in I2 as ((c', y) & E & I2). cbn in E. subst c'.
    rewrite <- (H (c, y)); [exact I2|now right|reflexivity].
  - rewrite fold_store_none; [|intros v Hv E; apply I2, in_map_iff; now exists v].
    destruct I1 as [->|I1]; [|exfalso; apply I2, in_map_iff; now exists (c, x)].
    unfold store. cbn. now destruct (cell_eq c c).
Qed.

Lemma in_flat2 (mk : Z -> Z -> cell) (f : Z -> Z -> R) c v a b a' b' :
  In (c, v) (flat_map (fun i => map (fun j => (mk i j, f i j)) (zseq a' b')) (zseq a b)) <->
  exists i j, a <= i < b /\ a' <= j < b' /\ c = mk i j /\ v = f i j.
Proof.
  rewrite in_flat_map. split.
  - intros (i & Hi & H). apply seq_iff in Hi. apply in_map_iff in H as (j & E & Hj). apply seq_iff in Hj.
    exists i, j. split; [lia|]. split; [lia|]. now injection E.
  - intros (i & j & Hi & Hj & -> & ->). exists i. split; [now apply seq_iff|]. apply in_map_iff. exists j. split; [reflexivity|]. now apply seq_iff.
Qed.
Lemma in_map1 (mk : Z -> cell) (f : Z -> R) c v a b :
  In (c, v) (map (fun j => (mk j, f j)) (zseq a b)) <-> exists j, a <= j < b /\ c = mk j /\ v = f j.
Proof.
  rewrite in_map_iff. split.
  - intros (j & E & H). apply seq_iff in H. exists j. split; [lia|]. now injection E.
  - intros (j & H & -> & ->). exists j. split; [reflexivity|]. now apply seq_iff.
Qed.
Lemma in_flat4 (f : Z -> Z -> Z -> Z -> R) c v a b a' b' e nc :
  In (c, v) (flat_map (fun i => flat_map (fun j => flat_map (fun k => map (fun l => (Coef i j k l, f i j k l))
      (zseq 0 (nc i))) (zseq 0 e)) (zseq a' b')) (zseq a b)) <->
  exists i j k l, a <= i < b /\ a' <= j < b' /\ 0 <= k < e /\ 0 <= l < nc i /\ c = Coef i j k l /\ v = f i j k l.
Proof.
  rewrite in_flat_map. split.
  - intros (i & Hi & H). apply seq_iff in Hi. apply in_flat_map in H as (j & Hj & H). apply seq_iff in Hj.
    apply in_flat2 in H as (k & l & Hk & Hl & E1 & E2). exists i, j, k, l. repeat (split; [assumption|]). assumption.
  - intros (i & j & k & l & Hi & Hj & Hk & Hl & E1 & E2). exists i. split; [now apply seq_iff|]. apply in_flat_map. exists j.
    split; [now apply seq_iff|]. apply in_flat2. now exists k, l.
Qed.

(** Both sides of an equivalence between descriptions of sets of stores *)
Ltac matches :=
  repeat match goal with
  | H : ex _ |- _ => destruct H
  | H : _ /\ _ |- _ => destruct H
  | H : _ \/ _ |- _ => destruct H
  | H : False |- _ => destruct H
  | H : (_, _) = (_, _) |- _ => injection H; clear H; intros
  end; subst;
  repeat match goal with H : ?a <= ?x, H' : ?x < ?a + 1 |- _ => assert (x = a) by lia; subst x; clear H H' end;
  try (left; reflexivity);
  repeat match goal with |- ex _ => eexists end;
  repeat match goal with |- _ /\ _ => split end;
  idtac.

(** The stores of an accepted call are those it is said to make. *)
Lemma plan_ok d o : broken o = false -> accepts d o -> exists ws, plan d o = Ok ws /\ forall c v, In (c, v) ws <-> gives d o c v.
Proof.
  intros B A.
  assert (forall b k, b = true -> check b k = k) as C by (intros b k ->; reflexivity).
  destruct o; cbn [broken accepts plan gives] in *; try discriminate B;
    unfold set_coef_x_p, set_layer_x_p, layer_x, each_deriv; repeat rewrite C by (try apply range_iff; tauto);
    eexists; (split; [reflexivity|]); intros c v; rewrite ?in_map1, ?in_flat2, ?in_flat4; cbn [In]; split; intros H; matches.
  all: try match goal with |- @eq cell _ _ => reflexivity end.
  all: try lia; try reflexivity; try (f_equal; lia).
Qed.

(** The value given is only one. *)
Lemma gives_one d o c v w : gives d o c v -> gives d o c w -> v = w.
Proof.
  destruct o; cbn [gives]; intros H1 H2; matches;
    match goal with H : _ = _ :> cell |- _ => injection H; intros; subst; reflexivity | _ => reflexivity end.
Qed.
Lemma gives_exists d o c v : broken o = false -> accepts d o -> gives d o c v -> exists_in d c.
Proof.
  intros B A G. destruct o; cbn [gives accepts broken] in *; try discriminate B; matches; cbn [exists_in]; repeat split; auto; lia.
Qed.
Lemma exists_alloc d c : sane d -> exists_in d c -> allocated d c = true.
Proof.
  intros [S1 S2]. destruct c; cbn [exists_in allocated]; rewrite ?andb_true_iff, ?range_iff; unfold MAX_KERNEL_PARAMS; try tauto; try lia.
  - intros (? & ? & ?). split; [split|]; [assumption|lia|lia].
  - intros (? & H & ? & ? & ?). specialize (S1 _ H). repeat split; auto; lia.
  - intros (H & ? & ?). specialize (S2 _ H). repeat split; auto; lia.
Qed.

Lemma set_ok d o m : sane d -> broken o = false -> accepts d o ->
  exists m', set d o m = Ok m' /\ (forall c v, gives d o c v -> m' c = Some v) /\ (forall c, (forall v, ~ gives d o c v) -> m' c = m c).
Proof.
  intros SN B A. destruct (plan_ok d o B A) as (ws & P & E). unfold set. rewrite P.
  rewrite (proj2 (forallb_forall _ ws)).
  - eexists. split; [reflexivity|]. split.
    + intros c v G. apply fold_store_some; [|now apply E]. intros (c', x) I1 E1. cbn in *. subst c'. apply (gives_one d o c); [now apply E|assumption].
    + intros c G. apply fold_store_none. intros (c', x) I1 E1. cbn in E1. subst c'. apply (G x). now apply E.
  - intros (c, v) I1. apply (exists_alloc d c SN), (gives_exists d o c v B A). now apply E.
Qed.
Lemma set_err d o m : ~ accepts d o -> exists e, set d o m = Err e.
Proof.
  intros A. enough (exists e, plan d o = Err e) as (e & E) by (exists e; unfold set; now rewrite E).
  destruct o; cbn [accepts plan] in *; unfold set_coef_x_p, set_layer_x_p; rewrite <- ?range_iff in A;
    repeat match goal with
    | |- exists e, check ?b _ = Err e => destruct b; [cbn [check]|now exists 1]
    | _ => exfalso; apply A; repeat split; reflexivity
    end.
Qed.

(** Every setting has a value last given. *)
Lemma last_given_total d c os : forall v, exists w, last_given d c os v w.
Proof.
  induction os as [|o os IH]; intros v; [exists v; constructor|].
  destruct (classic (accepts d o /\ exists x, gives d o c x)) as [(A & x & G)|N].
  - destruct (IH (Some x)) as (w & W). exists w. now apply (now d c o os v x w).
  - destruct (IH v) as (w & W). exists w. now apply not_here.
Qed.
Lemma calls_ok d os : sane d -> forallb (fun o => negb (broken o)) os = true -> forall m,
  exists m', calls d os m = Ok m' /\ forall c w, last_given d c os (m c) w -> m' c = w.
Proof.
  intros SN. induction os as [|o os IH]; intros B m.
  - exists m. split; [reflexivity|]. intros c w H. now inversion H.
  - cbn [forallb] in B. apply andb_true_iff in B as [B1 B2]. apply negb_true_iff in B1. cbn [calls].
    destruct (classic (accepts d o)) as [A|A].
    + destruct (set_ok d o m SN B1 A) as (m1 & -> & H1 & H2). destruct (IH B2 m1) as (m' & -> & H). exists m'. split; [reflexivity|].
      intros c w L. apply H. inversion L as [|? ? ? x ? _ G L'|? ? ? ? N L']; subst.
      * now rewrite (H1 c x G).
      * rewrite H2; [assumption|]. intros v G. apply N. split; [assumption|now exists v].
    + destruct (set_err d o m A) as (e & ->). destruct (IH B2 m) as (m' & -> & H). exists m'. split; [reflexivity|].
      intros c w L. apply H. inversion L; subst; [contradiction|assumption].
Qed.

Definition is_coef (c : cell) : bool := match c with Coef _ _ _ _ => true | _ => false end.
Lemma get_ok d m c : sane d -> exists_in d c -> is_coef c = false -> get d m c = match m c with Some x => Ok x | None => UB end.
Proof.
  intros SN X NC. pose proof (exists_alloc d c SN X) as AL. unfold get, load. rewrite AL.
  destruct c; cbn [exists_in is_coef] in *; try discriminate NC; rewrite <- ?range_iff in X; unfold gcheck;
    repeat match goal with H : _ /\ _ |- _ => destruct H end;
    repeat match goal with H : ?b = true |- context [if ?b then _ else _] => rewrite H end; reflexivity.
Qed.
Lemma get_err d m c : ~ exists_in d c -> element d c -> is_coef c = false -> exists e, get d m c = Err e.
Proof.
  intros X EL NC. destruct c; cbn [exists_in element is_coef] in *; try discriminate NC; rewrite <- ?range_iff in *; unfold get, gcheck;
    repeat match goal with
    | |- exists e, (if ?b then _ else _) = Err e => destruct b eqn:?; [|now exists 1]
    | _ => exfalso; apply X; repeat split; first [assumption|reflexivity|lia]
    end.
Qed.
