(** Lemmas about flag summaries and derivative flags.  No statement here is a property of
    the list; those are in DerivsProperties.v. *)
From Coq Require Import ZArith List Bool Lia Arith.
From Verif Require Import Base OptionsModel Dbl HandleModel DerivsModel DerivsSpec.
Import ListNotations.
Open Scope Z_scope.

Lemma existsb_ext_seq : forall f g n, (forall i, (i < n)%nat -> f i = g i) -> below n f = below n g.
Proof.
  intros f g n H. unfold below.
  assert (forall i, In i (seq 0 n) -> f i = g i) as K by (intros i I; apply in_seq in I; apply H; lia).
  induction (seq 0 n) as [|x l IH]; [reflexivity|].
  cbn. rewrite K by (left; reflexivity). rewrite IH; [reflexivity|]. intros; apply K; right; assumption.
Qed.
Lemma below_iff : forall n f, below n f = true <-> exists i, (i < n)%nat /\ f i = true.
Proof.
  intros. unfold below. rewrite existsb_exists. split; intros (i & A & B); exists i; split; auto.
  - apply in_seq in A. lia.
  - apply in_seq. lia.
Qed.
Lemma below_S : forall n f, below (S n) f = below n f || f n.
Proof. intros. unfold below. rewrite seq_S, existsb_app. cbn. now rewrite orb_false_r. Qed.

(* ---- loops ---- *)
Lemma loop_ext : forall S n (b c : nat -> S -> S), (forall i s, (i < n)%nat -> b i s = c i s) ->
  forall s, loop n b s = loop n c s.
Proof.
  induction n as [|n IH]; intros b c H s; [reflexivity|]. cbn. rewrite H by lia. rewrite (IH b c); auto.
Qed.

Section Columns.
Variables (body : nat -> table -> table) (P : nat -> bool) (g : nat -> nat -> Z).
Hypothesis Hb : forall j a k l, body j a k l = if (l =? j)%nat && P k then g k j else a k l.
Lemma columns : forall n a k l, loop n body a k l = if (l <? n)%nat && P k then g k l else a k l.
Proof.
  induction n as [|n IH]; intros a k l; cbn [loop].
  - reflexivity.
  - rewrite Hb, IH. destruct (l =? n)%nat eqn:E.
    + apply Nat.eqb_eq in E. subst l. replace (n <? S n)%nat with true by (symmetry; apply Nat.ltb_lt; lia).
      rewrite Nat.ltb_irrefl. cbn. destruct (P k); reflexivity.
    + apply Nat.eqb_neq in E. cbn [andb]. destruct (l <? n)%nat eqn:F.
      * apply Nat.ltb_lt in F. replace (l <? S n)%nat with true by (symmetry; apply Nat.ltb_lt; lia). reflexivity.
      * apply Nat.ltb_ge in F. replace (l <? S n)%nat with false by (symmetry; apply Nat.ltb_ge; lia). reflexivity.
Qed.
End Columns.

Section Rows.
Variables (body : nat -> table -> table) (P : nat -> bool) (g : nat -> nat -> Z).
Hypothesis Hb : forall i a k l, body i a k l = if (k =? i)%nat && P l then g i l else a k l.
Lemma rows_ : forall n a k l, loop n body a k l = if (k <? n)%nat && P l then g k l else a k l.
Proof.
  induction n as [|n IH]; intros a k l; cbn [loop].
  - reflexivity.
  - rewrite Hb, IH. destruct (k =? n)%nat eqn:E.
    + apply Nat.eqb_eq in E. subst k. replace (n <? S n)%nat with true by (symmetry; apply Nat.ltb_lt; lia).
      rewrite Nat.ltb_irrefl. cbn. destruct (P l); reflexivity.
    + apply Nat.eqb_neq in E. cbn [andb]. destruct (k <? n)%nat eqn:F.
      * apply Nat.ltb_lt in F. replace (k <? S n)%nat with true by (symmetry; apply Nat.ltb_lt; lia). reflexivity.
      * apply Nat.ltb_ge in F. replace (k <? S n)%nat with false by (symmetry; apply Nat.ltb_ge; lia). reflexivity.
Qed.
End Rows.

Lemma set_row : forall n i g a k l,
  loop n (fun j a => upd2 a i j (g j)) a k l = if (k =? i)%nat && (l <? n)%nat then g l else a k l.
Proof.
  intros n i g a k l.
  rewrite (columns _ (fun k => (k =? i)%nat) (fun _ l => g l)); [now rewrite andb_comm|].
  intros. unfold upd2. rewrite andb_comm. destruct (_ && _) eqn:E; [|reflexivity].
  apply andb_true_iff in E as [E _]. now apply Nat.eqb_eq in E as ->.
Qed.
Lemma set_col : forall n j g a k l,
  loop n (fun i a => upd2 a i j (g i)) a k l = if (l =? j)%nat && (k <? n)%nat then g k else a k l.
Proof.
  intros n j g a k l.
  rewrite (rows_ _ (fun l => (l =? j)%nat) (fun k _ => g k)); [now rewrite andb_comm|].
  intros i b k' l'. unfold upd2. reflexivity.
Qed.

(** A column filled top to bottom with a running state. *)
Section Scan.
Variables (T : Type) (pos : nat -> nat) (val : nat -> T -> Z) (next : nat -> T -> T) (j : nat).
Let step := fun i '(a, t) => (upd2 a (pos i) j (val i t), next i t).
Lemma scan_state : forall n a t, snd (loop n step (a, t)) = loop n next t.
Proof.
  induction n as [|n IH]; intros a t; [reflexivity|]. cbn [loop].
  specialize (IH a t). destruct (loop n step (a, t)) as [b u]. cbn in *. now subst.
Qed.
Lemma scan_miss : forall n a t k l, (l <> j \/ forall i, (i < n)%nat -> pos i <> k) ->
  fst (loop n step (a, t)) k l = a k l.
Proof.
  induction n as [|n IH]; intros a t k l H; [reflexivity|]. cbn [loop].
  specialize (IH a t k l). destruct (loop n step (a, t)) as [b u]. cbn in *.
  unfold upd2. destruct ((k =? pos n)%nat && (l =? j)%nat) eqn:E.
  - apply andb_true_iff in E as [E F]. apply Nat.eqb_eq in E, F. exfalso.
    destruct H as [H|H]; [auto|]. apply (H n); [lia|auto].
  - apply IH. destruct H as [H|H]; auto.
Qed.
Lemma scan_hit : forall n a t i, (forall i' i'', (i' < n)%nat -> (i'' < n)%nat -> pos i' = pos i'' -> i' = i'') ->
  (i < n)%nat -> fst (loop n step (a, t)) (pos i) j = val i (loop i next t).
Proof.
  induction n as [|n IH]; intros a t i Inj L; [lia|]. cbn [loop].
  assert (St := scan_state n a t).
  destruct (Nat.eq_dec i n) as [->|N].
  - destruct (loop n step (a, t)) as [b u]. cbn in *. unfold upd2. rewrite !Nat.eqb_refl. cbn. now subst u.
  - specialize (IH a t i). destruct (loop n step (a, t)) as [b u]. cbn in *. unfold upd2.
    destruct ((pos i =? pos n)%nat) eqn:E.
    + apply Nat.eqb_eq in E. apply Inj in E; [contradiction|lia|lia].
    + cbn. apply IH; [intros; apply Inj; auto; lia|lia].
Qed.
End Scan.

Lemma or_scan : forall (f : nat -> bool) n b0, loop n (fun i flag => if f i then true else flag) b0 = b0 || below n f.
Proof.
  induction n as [|n IH]; intros b0; cbn [loop].
  - cbn. now rewrite orb_false_r.
  - rewrite IH, below_S. destruct (f n); [now rewrite !orb_true_r|now rewrite orb_false_r].
Qed.

Lemma or_scan2 : forall (f g : nat -> bool) n a b,
  loop n (fun i '(p, q) => (if f i then true else p, if g i then true else q)) (a, b)
  = (loop n (fun i p => if f i then true else p) a, loop n (fun i q => if g i then true else q) b).
Proof. induction n as [|n IH]; intros; [reflexivity|]. cbn [loop]. now rewrite IH. Qed.

(* ------------------------------------------------------------------------- *)
(** * Builders, pointwise                                                     *)

Lemma build_layers_eq : forall d flag a i j,
  build_layers d flag a i j =
  if (i <=? l_layers d)%nat && (j <? l_derivs d)%nat
  then if (i <? l_layers d)%nat then layer_entry d i j else surface_entry d flag j
  else a i j.
Proof.
  intros. unfold build_layers. rewrite set_row.
  rewrite (rows_ _ (fun j => (j <? l_derivs d)%nat) (fun i j => layer_entry d i j)) by (intros; apply set_row).
  destruct (i =? l_layers d)%nat eqn:E.
  - apply Nat.eqb_eq in E. subst. rewrite Nat.leb_refl, Nat.ltb_irrefl. cbn [andb]. reflexivity.
  - apply Nat.eqb_neq in E. cbn [andb]. destruct (i <? l_layers d)%nat eqn:F.
    + apply Nat.ltb_lt in F. replace (i <=? l_layers d)%nat with true by (symmetry; apply Nat.leb_le; lia). reflexivity.
    + apply Nat.ltb_ge in F. replace (i <=? l_layers d)%nat with false by (symmetry; apply Nat.leb_gt; lia). reflexivity.
Qed.

Lemma build_total_eq : forall d layers sources a i j,
  build_total d layers sources a i j =
  if (i =? 0)%nat && (j <? l_derivs d)%nat
  then if below (l_layers d + 1) (fun k => tr (layers k j) || tr (sources k j)) then 1 else 0
  else a i j.
Proof.
  intros. unfold build_total.
  assert (forall n (f : nat -> bool) b k l, loop n (fun j a => if f j then upd2 a 0 j 1 else a) b k l
            = if (k =? 0)%nat && (l <? n)%nat && f l then 1 else b k l) as R.
  { induction n as [|n IH]; intros f b k l; cbn [loop].
    - cbn. now rewrite andb_false_r.
    - destruct (Nat.eq_dec l n) as [->|N].
      + replace (n <? S n)%nat with true by (symmetry; apply Nat.ltb_lt; lia).
        destruct (f n) eqn:F.
        * unfold upd2. rewrite Nat.eqb_refl, !andb_true_r. destruct (k =? 0)%nat; [reflexivity|].
          rewrite IH, Nat.ltb_irrefl, andb_false_r. reflexivity.
        * rewrite IH, Nat.ltb_irrefl, F, !andb_false_r. reflexivity.
      + assert ((l <? S n) = (l <? n))%nat as -> .
        { destruct (l <? n)%nat eqn:E; [apply Nat.ltb_lt in E; apply Nat.ltb_lt; lia|apply Nat.ltb_ge in E; apply Nat.ltb_ge; lia]. }
        destruct (f n).
        * unfold upd2. apply Nat.eqb_neq in N. rewrite N, andb_false_r. apply IH.
        * apply IH. }
  set (z := loop (l_derivs d) (fun j a => upd2 a 0 j 0) a).
  assert (forall n k l, loop n (fun i => loop (l_derivs d) (fun j a =>
            if tr (layers i j) || tr (sources i j) then upd2 a 0 j 1 else a)) z k l
          = if (k =? 0)%nat && (l <? l_derivs d)%nat && below n (fun i => tr (layers i l) || tr (sources i l)) then 1 else z k l) as K.
  { induction n as [|n IH]; intros k l; cbn [loop].
    - cbn. now rewrite andb_false_r.
    - rewrite R, IH, below_S. destruct ((k =? 0)%nat && (l <? l_derivs d)%nat); cbn [andb]; [|reflexivity].
      destruct (tr (layers n l) || tr (sources n l)); [now rewrite orb_true_r|now rewrite orb_false_r]. }
  rewrite K. unfold z. rewrite set_row.
  destruct ((i =? 0)%nat && (j <? l_derivs d)%nat); cbn [andb]; reflexivity.
Qed.

Lemma build_beam_eq : forall d layers a i j,
  build_beam d layers a i j =
  if (j <? l_derivs d)%nat && (i <=? l_layers d)%nat
  then if below (S i) (fun k => tr (layers k j)) then 1 else 0 else a i j.
Proof.
  intros. unfold build_beam.
  rewrite (columns _ (fun i => (i <=? l_layers d)%nat) (fun i j => if below (S i) (fun k => tr (layers k j)) then 1 else 0)); [reflexivity|].
  clear a i j. intros j a k l. cbv zeta.
  set (step := fun i '(a, flag) => _).
  assert (forall n a, snd (loop n step (a, 0)) = if below n (fun k => tr (layers k j)) then 1 else 0) as St.
  { induction n as [|n IH]; intros b; [reflexivity|]. cbn [loop]. specialize (IH b).
    destruct (loop n step (b, 0)) as [c u]. unfold step at 1. cbn [fst snd] in *. rewrite below_S.
    destruct (tr (layers n j)); [now rewrite orb_true_r|now rewrite orb_false_r]. }
  assert (forall n a k l, fst (loop n step (a, 0)) k l =
     if (l =? j)%nat && (k <? n)%nat then if below (S k) (fun k => tr (layers k j)) then 1 else 0 else a k l) as K.
  { induction n as [|n IH]; intros b k' l'; [cbn; now rewrite andb_false_r|]. cbn [loop].
    specialize (IH b k' l'). specialize (St n b). destruct (loop n step (b, 0)) as [c u]. unfold step at 1. cbn [fst snd] in *.
    unfold upd2. destruct (k' =? n)%nat eqn:E.
    - apply Nat.eqb_eq in E. subst k'. replace (n <? S n)%nat with true by (symmetry; apply Nat.ltb_lt; lia).
      rewrite andb_true_r. cbn [andb]. destruct (l' =? j)%nat eqn:F; [|exact IH].
      rewrite below_S, St. destruct (below n _), (tr (layers n j)); reflexivity.
    - apply Nat.eqb_neq in E. cbn [andb]. rewrite IH.
      assert ((k' <? S n) = (k' <? n))%nat as ->; [|reflexivity].
      destruct (k' <? n)%nat eqn:F; [apply Nat.ltb_lt in F; apply Nat.ltb_lt; lia|apply Nat.ltb_ge in F; apply Nat.ltb_ge; lia]. }
  rewrite K. replace (k <? l_layers d + 1)%nat with (k <=? l_layers d)%nat; [reflexivity|].
  destruct (k <=? l_layers d)%nat eqn:E; symmetry; [apply Nat.ltb_lt; apply Nat.leb_le in E; lia|apply Nat.ltb_ge; apply Nat.leb_gt in E; lia].
Qed.

Lemma le_cases : forall i n, (i <=? n)%nat = (i <? n)%nat || (i =? n)%nat.
Proof.
  intros. destruct (i <=? n)%nat eqn:E, (i <? n)%nat eqn:F, (i =? n)%nat eqn:G; try reflexivity; exfalso;
  repeat match goal with
  | H : (_ <=? _)%nat = true |- _ => apply Nat.leb_le in H | H : (_ <=? _)%nat = false |- _ => apply Nat.leb_gt in H
  | H : (_ <? _)%nat = true |- _ => apply Nat.ltb_lt in H | H : (_ <? _)%nat = false |- _ => apply Nat.ltb_ge in H
  | H : (_ =? _)%nat = true |- _ => apply Nat.eqb_eq in H | H : (_ =? _)%nat = false |- _ => apply Nat.eqb_neq in H end; lia.
Qed.

Lemma build_thermal_eq : forall d layers a i j,
  build_thermal d layers a i j =
  if (j <? l_derivs d)%nat && (i <=? l_layers d)%nat
  then if tr (layers i j) || (if (i <? l_layers d)%nat then nz (levels_b_l d i j) || nz (levels_b_l d (i + 1) j) else nz (surface_b_l d j))
       then 1 else 0 else a i j.
Proof.
  intros. unfold build_thermal.
  rewrite (columns _ (fun i => (i <=? l_layers d)%nat) (fun i j => if tr (layers i j) || (if (i <? l_layers d)%nat then nz (levels_b_l d i j) || nz (levels_b_l d (i + 1) j) else nz (surface_b_l d j))
       then 1 else 0)); [reflexivity|].
  clear a i j. intros j a k l. unfold upd2 at 1. rewrite set_col.
  rewrite le_cases. destruct (k =? l_layers d)%nat eqn:E.
  - apply Nat.eqb_eq in E. subst. rewrite Nat.ltb_irrefl, !andb_true_r. cbn. now rewrite andb_false_r.
  - cbn [andb]. rewrite orb_false_r. destruct (k <? l_layers d)%nat; [|now rewrite andb_false_r].
    now rewrite orb_assoc.
Qed.

Lemma build_sources_eq : forall d beam thermal a i j,
  build_sources d beam thermal a i j =
  if (j <? l_derivs d)%nat && (i <=? l_layers d)%nat
  then Z.lor (if l_solar d then beam i j else 0) (if l_thermal d then thermal i j else 0) else a i j.
Proof.
  intros. unfold build_sources.
  rewrite (columns _ (fun i => (i <=? l_layers d)%nat) (fun i j => Z.lor (if l_solar d then beam i j else 0) (if l_thermal d then thermal i j else 0))); [reflexivity|].
  clear a i j. intros j a k l. cbv zeta.
  rewrite (set_col _ j (fun i => if l_thermal d then Z.lor (if l_solar d then Z.lor 0 (beam i j) else 0) (thermal i j)
                                 else if l_solar d then Z.lor 0 (beam i j) else 0)).
  replace (k <? l_layers d + 1)%nat with (k <=? l_layers d)%nat.
  2:{ destruct (k <=? l_layers d)%nat eqn:E; symmetry; [apply Nat.ltb_lt; apply Nat.leb_le in E; lia|apply Nat.ltb_ge; apply Nat.leb_gt in E; lia]. }
  rewrite Z.lor_0_l. destruct (l_solar d), (l_thermal d); rewrite ?Z.lor_0_r, ?Z.lor_0_l; reflexivity.
Qed.

(** An adding code from its four bits. *)
Definition code (tl ts bl bs : bool) : Z := 8 * Z.b2z tl + 4 * Z.b2z ts + 2 * Z.b2z bl + Z.b2z bs.
Lemma down_code_eq : forall f f2 l s, down_code f f2 l s = code f f2 l s.
Proof. intros [] [] [] []; reflexivity. Qed.
Lemma up_code_eq : forall f f2 l s, up_code f f2 l s = code l s f f2.
Proof. intros [] [] [] []; reflexivity. Qed.
Lemma down_first_eq : forall l s, down_first l s = code false false l s.
Proof. intros [] []; reflexivity. Qed.
Lemma up_first_eq : forall l s, up_first l s = code l s false false.
Proof. intros [] []; reflexivity. Qed.
Lemma code_bits : forall a b c e,
  Z.testbit (code a b c e) 3 = a /\ Z.testbit (code a b c e) 2 = b /\ Z.testbit (code a b c e) 1 = c /\
  Z.testbit (code a b c e) 0 = e /\ 0 <= code a b c e < 16.
Proof. intros [] [] [] []; repeat split; reflexivity || (cbv; intros K; discriminate K). Qed.

Lemma if_tf : forall b : bool, (if b then true else false) = b.
Proof. intros []; reflexivity. Qed.

Lemma build_down_eq : forall d layers sources a i j,
  build_down d layers sources a i j =
  if (j <? l_derivs d)%nat && (i <=? l_layers d)%nat
  then code (below i (fun k => tr (layers k j))) (below i (fun k => tr (sources k j))) (tr (layers i j)) (tr (sources i j))
  else a i j.
Proof.
  intros. unfold build_down.
  rewrite (columns _ (fun i => (i <=? l_layers d)%nat) (fun i j => code (below i (fun k => tr (layers k j))) (below i (fun k => tr (sources k j))) (tr (layers i j)) (tr (sources i j)))); [reflexivity|].
  clear a i j. intros j a k l. cbv zeta. rewrite !if_tf.
  set (L := fun i => tr (layers i j)). set (R := fun i => tr (sources i j)).
  set (a' := upd2 a 0 j _).
  rewrite (loop_ext _ _ _ (fun i '(a, t) => (upd2 a (S i) j ((fun i t => down_code (fst t) (snd t) (L (S i)) (R (S i))) i t),
            (fun i '(p, q) => (if L (S i) then true else p, if R (S i) then true else q)) i t)))
    by (intros i [b [p q]] _; reflexivity).
  destruct k as [|k].
  - rewrite scan_miss by (right; intros; discriminate). unfold a', upd2. cbn [Nat.eqb Nat.leb andb].
    rewrite andb_true_r. destruct (l =? j)%nat; [apply down_first_eq|reflexivity].
  - destruct ((l =? j)%nat && (S k <=? l_layers d)%nat) eqn:E.
    + apply andb_true_iff in E as [E F]. apply Nat.eqb_eq in E. apply Nat.leb_le in F. subst l.
      rewrite (scan_hit _ S _ _ j (l_layers d) _ _ k) by (intros; try lia).
      rewrite (or_scan2 (fun i => L (S i)) (fun i => R (S i))), down_code_eq. cbn [fst snd].
      rewrite !or_scan. f_equal.
      * change (L 0%nat || below k (fun i => L (S i)) = below (S k) L). unfold below. cbn [seq existsb]. f_equal.
        rewrite <- seq_shift. generalize (seq 0 k). induction l as [|x l IH]; [reflexivity|]. cbn. now rewrite IH.
      * change (R 0%nat || below k (fun i => R (S i)) = below (S k) R). unfold below. cbn [seq existsb]. f_equal.
        rewrite <- seq_shift. generalize (seq 0 k). induction l as [|x l IH]; [reflexivity|]. cbn. now rewrite IH.
    + rewrite scan_miss.
      * unfold a', upd2. reflexivity.
      * apply andb_false_iff in E as [E|E]; [left; now apply Nat.eqb_neq|right; apply Nat.leb_gt in E; intros; lia].
Qed.

(** Any index strictly between [i] and [n], inclusive of [n]. *)
Definition above (i n : nat) (f : nat -> bool) : bool := existsb f (seq (S i) (n - i)).
Lemma above_iff : forall i n f, above i n f = true <-> exists k, (i < k <= n)%nat /\ f k = true.
Proof.
  intros. unfold above. rewrite existsb_exists. split; intros (k & A & B); exists k; split; auto.
  - apply in_seq in A. lia.
  - apply in_seq. lia.
Qed.

Lemma down_scan : forall (L : nat -> bool) n m, (m <= n)%nat ->
  L n || below m (fun k => L (n - 1 - k)%nat) = above (n - 1 - m) n L \/ (m >= n)%nat.
Proof. intros. destruct (Nat.lt_ge_cases m n) as [K|K]; [|right; lia]. left.
  apply eq_true_iff_eq. rewrite orb_true_iff, below_iff, above_iff. split.
  - intros [A|(k & A & B)]; [exists n; split; [lia|auto]|exists (n - 1 - k)%nat; split; [lia|auto]].
  - intros (k & A & B). destruct (Nat.eq_dec k n) as [->|N]; [left; auto|]. right.
    exists (n - 1 - k)%nat. split; [lia|]. replace (n - 1 - (n - 1 - k))%nat with k by lia. auto.
Qed.

Lemma build_up_eq : forall d layers sources a i j,
  build_up d layers sources a i j =
  if (j <? l_derivs d)%nat && (i <=? l_layers d)%nat
  then code (tr (layers i j)) (tr (sources i j)) (above i (l_layers d) (fun k => tr (layers k j))) (above i (l_layers d) (fun k => tr (sources k j)))
  else a i j.
Proof.
  intros. unfold build_up. cbv zeta.
  rewrite (columns _ (fun i => (i <=? l_layers d)%nat) (fun i j => code (tr (layers i j)) (tr (sources i j)) (above i (l_layers d) (fun k => tr (layers k j))) (above i (l_layers d) (fun k => tr (sources k j))))); [reflexivity|].
  clear a i j. intros j a k l. rewrite !if_tf. unfold loop_down. set (n := l_layers d).
  set (L := fun i => tr (layers i j)). set (R := fun i => tr (sources i j)).
  set (a' := upd2 a n j _).
  rewrite (loop_ext _ _ _ (fun i '(a, t) => (upd2 a ((fun i => n - 1 - i)%nat i) j ((fun i t => up_code (fst t) (snd t) (L (n - 1 - i)%nat) (R (n - 1 - i)%nat)) i t),
            (fun i '(p, q) => (if L (n - 1 - i)%nat then true else p, if R (n - 1 - i)%nat then true else q)) i t)))
    by (intros i [b [p q]] _; reflexivity).
  destruct (Nat.lt_trichotomy k n) as [K|[K|K]].
  - replace (k <=? n)%nat with true by (symmetry; apply Nat.leb_le; lia). rewrite andb_true_r.
    destruct (l =? j)%nat eqn:E.
    + apply Nat.eqb_eq in E. subst l.
      assert (k = (fun i => (n - 1 - i)%nat) (n - 1 - k)%nat) as Ek by (cbn; lia).
      rewrite Ek at 1. rewrite (scan_hit _ (fun i => (n - 1 - i)%nat) _ _ j n _ _ (n - 1 - k)%nat) by (intros; try lia).
      rewrite (or_scan2 (fun i => L (n - 1 - i)%nat) (fun i => R (n - 1 - i)%nat)), up_code_eq. cbn [fst snd].
      rewrite !or_scan. replace (n - 1 - (n - 1 - k))%nat with k by lia.
      fold (L n) (R n) (L k) (R k).
      destruct (down_scan L n (n - 1 - k)) as [-> | H]; [lia| |lia].
      destruct (down_scan R n (n - 1 - k)) as [-> | H]; [lia| |lia].
      replace (n - 1 - (n - 1 - k))%nat with k by lia. reflexivity.
    + rewrite scan_miss by (left; now apply Nat.eqb_neq). unfold a', upd2. rewrite E, andb_false_r. reflexivity.
  - subst k. rewrite scan_miss by (right; intros; lia). unfold a', upd2. rewrite Nat.eqb_refl, Nat.leb_refl, andb_true_r.
    cbn [andb]. destruct (l =? j)%nat; [|reflexivity]. rewrite up_first_eq. unfold above. rewrite Nat.sub_diag. reflexivity.
  - replace (k <=? n)%nat with false by (symmetry; apply Nat.leb_gt; lia). rewrite andb_false_r.
    rewrite scan_miss by (right; intros; lia). unfold a', upd2.
    replace (k =? n)%nat with false by (symmetry; apply Nat.eqb_neq; lia). reflexivity.
Qed.

Lemma below_shift : forall k f, f 0%nat || below k (fun i => f (S i)) = below (S k) f.
Proof.
  intros. unfold below. cbn [seq existsb]. f_equal.
  rewrite <- seq_shift. generalize (seq 0 k). induction l as [|x l IH]; [reflexivity|]. cbn. now rewrite IH.
Qed.

Lemma build_stacks_eq : forall d layers a i j,
  build_stacks d layers a i j =
  if (j <? l_derivs d)%nat && (i <=? l_layers d)%nat
  then match i with O => if tr (layers 0%nat j) then 1 else 0
       | S k => if below i (fun k => tr (layers k j)) then 5 else 0 end
  else a i j.
Proof.
  intros. unfold build_stacks.
  rewrite (columns _ (fun i => (i <=? l_layers d)%nat) (fun i j => match i with O => if tr (layers 0%nat j) then 1 else 0
       | S k => if below i (fun k => tr (layers k j)) then 5 else 0 end)); [reflexivity|].
  clear a i j. intros j a k l. cbv zeta. rewrite !if_tf.
  set (L := fun i => tr (layers i j)).
  set (a' := if tr (layers 0%nat j) then _ else _).
  rewrite (loop_ext _ _ _ (fun i '(a, t) => (upd2 a (S i) j ((fun i t => if L i || t then if negb t then 1 else 5 else 0) i t),
            (fun i p => if L (S i) then true else p) i t)))
    by (intros i [b t] _; fold (L i) (L (S i)); destruct (L i), t; reflexivity).
  destruct k as [|k].
  - rewrite scan_miss by (right; intros; discriminate). unfold a'. fold (L 0%nat). cbn [Nat.leb]. rewrite andb_true_r.
    destruct (L 0%nat); unfold upd2; cbn [Nat.eqb andb]; destruct (l =? j)%nat; reflexivity.
  - destruct ((l =? j)%nat && (S k <=? l_layers d)%nat) eqn:E.
    + apply andb_true_iff in E as [E F]. apply Nat.eqb_eq in E. apply Nat.leb_le in F. subst l.
      rewrite (scan_hit _ S _ _ j (l_layers d) _ _ k) by (intros; try lia).
      rewrite or_scan. fold (L 0%nat). rewrite below_shift. fold L.
      assert (L k = true -> below (S k) L = true) as M by (intros M; rewrite below_S, M; apply orb_true_r).
      destruct (L k), (below (S k) L); try reflexivity. discriminate (M eq_refl).
    + rewrite scan_miss.
      * unfold a'. destruct (tr (layers 0%nat j)); unfold upd2; reflexivity.
      * apply andb_false_iff in E as [E|E]; [left; now apply Nat.eqb_neq|right; apply Nat.leb_gt in E; intros; lia].
Qed.

(* ------------------------------------------------------------------------- *)
(** * From booleans to the inputs                                             *)

Lemma nz_iff : forall x, nz x = true <-> moves x.
Proof. intros. unfold nz, moves. rewrite negb_true_iff. reflexivity. Qed.

Lemma layer_entry_spec : forall d i j, flags (layer_entry d i j) (moves_layer d i j).
Proof.
  intros. unfold layer_entry, flags, moves_layer.
  destruct (nz (ltau_l d i j)) eqn:A; [left; split; [reflexivity|left; now apply nz_iff]|].
  destruct (nz (omega_l d i j)) eqn:B; [left; split; [reflexivity|right; left; now apply nz_iff]|].
  destruct (below (l_elem d) _) eqn:C.
  - left. split; [reflexivity|]. right; right.
    apply below_iff in C as (k & K & C). apply below_iff in C as (l & L & C).
    exists k, l. rewrite <- nz_iff. auto.
  - right. split; [reflexivity|]. rewrite <- !nz_iff. intros [H|[H|(k & l & K & L & H)]]; try congruence.
    enough (false = true) by discriminate. rewrite <- C. apply below_iff. exists k. split; [auto|].
    apply below_iff. exists l. split; [auto|now apply nz_iff].
Qed.

Lemma surface_entry_spec : forall d flag j,
  flags (surface_entry d flag j) ((flag = true \/ directional d) /\ moves_surface d j).
Proof.
  intros. unfold surface_entry.
  assert (flag || brdf_needs_fourier (l_kernels d) = true <-> (flag = true \/ directional d)) as G.
  { rewrite orb_true_iff. unfold brdf_needs_fourier, directional. rewrite existsb_exists. reflexivity. }
  match goal with |- context [below ?n ?f] => set (B := below n f) end.
  assert (B = true <-> moves_surface d j) as M.
  { unfold B, moves_surface. rewrite below_iff. split.
    - intros (k & K & H). destruct (nth_error (l_kernels d) k) as [t|] eqn:E.
      2:{ apply nth_error_None in E. lia. }
      exists k, t. split; [auto|]. rewrite (nth_error_nth _ _ 0 E) in H.
      apply orb_true_iff in H as [H|H]; [left; now apply nz_iff|right].
      apply below_iff in H as (l & L & H). exists l. split; [auto|now apply nz_iff].
    - intros (k & t & E & H). exists k. split; [apply nth_error_Some; congruence|].
      rewrite (nth_error_nth _ _ 0 E). apply orb_true_iff. destruct H as [H|(l & L & H)]; [left; now apply nz_iff|right].
      apply below_iff. exists l. split; [auto|now apply nz_iff]. }
  unfold flags. destruct (flag || _).
  - destruct B; [left|right]; split; auto; intuition congruence.
  - right. split; auto. intros [H _]. apply G in H. discriminate.
Qed.

Lemma layers_spec : forall d flag a i j, (i <= l_layers d)%nat -> (j < l_derivs d)%nat ->
  flags (build_layers d flag a i j) (acts d flag i j).
Proof.
  intros d flag a i j I J. rewrite build_layers_eq.
  replace (i <=? l_layers d)%nat with true by (symmetry; now apply Nat.leb_le).
  replace (j <? l_derivs d)%nat with true by (symmetry; now apply Nat.ltb_lt). cbn [andb].
  unfold acts. destruct (i <? l_layers d)%nat eqn:E.
  - apply Nat.ltb_lt in E. destruct (layer_entry_spec d i j) as [[-> H]|[-> H]]; [left|right]; split; auto.
    intros [[_ K]|[K _]]; [auto|lia].
  - apply Nat.ltb_ge in E. destruct (surface_entry_spec d flag j) as [[-> H]|[-> H]]; [left|right]; split; auto.
    + right. split; [lia|auto].
    + intros [[K _]|[_ K]]; [lia|auto].
Qed.

Lemma flags_tr : forall v P, flags v P -> (tr v = true <-> P).
Proof. intros v P [[-> H]|[-> H]]; cbn; split; auto; try discriminate; contradiction. Qed.
Lemma flags_if : forall (b : bool) P, (b = true <-> P) -> flags (if b then 1 else 0) P.
Proof. intros [] P H; [left|right]; split; auto; try tauto. intros K. apply H in K. discriminate. Qed.
Lemma flags_iff : forall v P Q, flags v P -> (P <-> Q) -> flags v Q.
Proof. intros v P Q [[-> H]|[-> H]] E; [left|right]; split; tauto. Qed.
Lemma flags_lor : forall v w P Q, flags v P -> flags w Q -> flags (Z.lor v w) (P \/ Q).
Proof.
  intros v w P Q [[-> H]|[-> H]] [[-> K]|[-> K]]; cbn; [left|left|left|right]; split; tauto.
Qed.

Section Set_.
Variables (d : lin) (flag : bool) (o : derivs).
Let v := build_set d flag o.
Ltac inr I J := replace (_ <? l_derivs d)%nat with true by (symmetry; now apply Nat.ltb_lt);
  replace (_ <=? l_layers d)%nat with true by (symmetry; now apply Nat.leb_le); cbn [andb].

Lemma set_layers : forall i j, (i <= l_layers d)%nat -> (j < l_derivs d)%nat -> flags (v_layers v i j) (acts d flag i j).
Proof. intros. apply layers_spec; auto. Qed.
Lemma below_acts : forall i j, (i <= S (l_layers d))%nat -> (j < l_derivs d)%nat ->
  (below i (fun k => tr (v_layers v k j)) = true <-> exists k, (k < i)%nat /\ acts d flag k j).
Proof.
  intros i j I J. rewrite below_iff. split; intros (k & K & H); exists k; (split; [auto|]);
  apply (flags_tr _ _ (set_layers k j ltac:(lia) J)); auto.
Qed.
Lemma set_beam : forall i j, l_solar d = true -> (i <= l_layers d)%nat -> (j < l_derivs d)%nat ->
  flags (v_beam v i j) (exists k, (k <= i)%nat /\ acts d flag k j).
Proof.
  intros i j So I J. change (v_beam v) with (if l_solar d then build_beam d (v_layers v) (v_beam o) else v_beam o). rewrite So, build_beam_eq. inr I J.
  apply flags_if. rewrite (below_acts (S i) j ltac:(lia) J).
  split; intros (k & K & H); exists k; split; auto; lia.
Qed.
Lemma set_thermal : forall i j, l_thermal d = true -> (i <= l_layers d)%nat -> (j < l_derivs d)%nat ->
  flags (v_thermal v i j) (acts d flag i j \/ emission d i j).
Proof.
  intros i j Th I J. change (v_thermal v) with (if l_thermal d then build_thermal d (v_layers v) (v_thermal o) else v_thermal o). rewrite Th, build_thermal_eq. inr I J.
  apply flags_if. rewrite orb_true_iff.
  rewrite (flags_tr _ _ (set_layers i j I J)). apply or_iff_compat_l. unfold emission.
  destruct (i <? l_layers d)%nat eqn:E.
  - apply Nat.ltb_lt in E. rewrite orb_true_iff, !nz_iff. intuition lia.
  - apply Nat.ltb_ge in E. rewrite nz_iff. intuition lia.
Qed.
Lemma set_sources : forall i j, (i <= l_layers d)%nat -> (j < l_derivs d)%nat ->
  flags (v_sources v i j) (acts_source d flag i j).
Proof.
  intros i j I J. change (v_sources v) with (build_sources d (v_beam v) (v_thermal v) (v_sources o)).
  rewrite build_sources_eq. inr I J. unfold acts_source.
  apply flags_lor.
  - destruct (l_solar d) eqn:So.
    + eapply flags_iff; [exact (set_beam i j So I J)|intuition].
    + right. split; [reflexivity|intros [K _]; discriminate].
  - destruct (l_thermal d) eqn:Th.
    + eapply flags_iff; [exact (set_thermal i j Th I J)|intuition].
    + right. split; [reflexivity|intros [K _]; discriminate].
Qed.
Lemma set_total : forall j, (j < l_derivs d)%nat ->
  flags (v_total v 0%nat j) (exists i, (i <= l_layers d)%nat /\ (acts d flag i j \/ acts_source d flag i j)).
Proof.
  intros j J. change (v_total v) with (build_total d (v_layers v) (v_sources v) (v_total o)).
  rewrite build_total_eq.
  replace (_ <? l_derivs d)%nat with true by (symmetry; now apply Nat.ltb_lt). cbn [andb Nat.eqb].
  apply flags_if.
  rewrite below_iff. split; intros (k & K & H); exists k; (split; [lia|]).
  - apply orb_true_iff in H as [H|H]; [left; apply (flags_tr _ _ (set_layers k j ltac:(lia) J)); auto
      |right; apply (flags_tr _ _ (set_sources k j ltac:(lia) J)); auto].
  - apply orb_true_iff. destruct H as [H|H]; [left; apply (flags_tr _ _ (set_layers k j ltac:(lia) J)); auto
      |right; apply (flags_tr _ _ (set_sources k j ltac:(lia) J)); auto].
Qed.
Lemma code_codes : forall a b c e A B C E, (a = true <-> A) -> (b = true <-> B) -> (c = true <-> C) -> (e = true <-> E) ->
  codes (code a b c e) A B C E.
Proof.
  intros. destruct (code_bits a b c e) as (P & Q & R & S0 & T).
  refine (conj T (conj _ (conj _ (conj _ _)))); [rewrite P|rewrite Q|rewrite R|rewrite S0]; auto.
Qed.
Lemma below_src : forall i j, (i <= S (l_layers d))%nat -> (j < l_derivs d)%nat ->
  (below i (fun k => tr (v_sources v k j)) = true <-> exists k, (k < i)%nat /\ acts_source d flag k j).
Proof.
  intros i j I J. rewrite below_iff. split; intros (k & K & H); exists k; (split; [auto|]);
  apply (flags_tr _ _ (set_sources k j ltac:(lia) J)); auto.
Qed.
Lemma above_acts : forall i j, (j < l_derivs d)%nat ->
  (above i (l_layers d) (fun k => tr (v_layers v k j)) = true <-> exists k, (i < k <= l_layers d)%nat /\ acts d flag k j).
Proof.
  intros i j J. rewrite above_iff. split; intros (k & K & H); exists k; (split; [auto|]);
  apply (flags_tr _ _ (set_layers k j ltac:(lia) J)); auto.
Qed.
Lemma above_src : forall i j, (j < l_derivs d)%nat ->
  (above i (l_layers d) (fun k => tr (v_sources v k j)) = true <-> exists k, (i < k <= l_layers d)%nat /\ acts_source d flag k j).
Proof.
  intros i j J. rewrite above_iff. split; intros (k & K & H); exists k; (split; [auto|]);
  apply (flags_tr _ _ (set_sources k j ltac:(lia) J)); auto.
Qed.
Lemma set_down : forall i j, (i <= l_layers d)%nat -> (j < l_derivs d)%nat ->
  codes (v_down v i j) (exists k, (k < i)%nat /\ acts d flag k j) (exists k, (k < i)%nat /\ acts_source d flag k j)
    (acts d flag i j) (acts_source d flag i j).
Proof.
  intros i j I J. change (v_down v) with (build_down d (v_layers v) (v_sources v) (v_down o)).
  rewrite build_down_eq. inr I J. apply code_codes.
  - apply below_acts; auto.
  - apply below_src; auto.
  - apply flags_tr, set_layers; auto.
  - apply flags_tr, set_sources; auto.
Qed.
Lemma set_up : forall i j, (i <= l_layers d)%nat -> (j < l_derivs d)%nat ->
  codes (v_up v i j) (acts d flag i j) (acts_source d flag i j)
    (exists k, (i < k <= l_layers d)%nat /\ acts d flag k j) (exists k, (i < k <= l_layers d)%nat /\ acts_source d flag k j).
Proof.
  intros i j I J. change (v_up v) with (build_up d (v_layers v) (v_sources v) (v_up o)).
  rewrite build_up_eq. inr I J. apply code_codes.
  - apply flags_tr, set_layers; auto.
  - apply flags_tr, set_sources; auto.
  - apply above_acts; auto.
  - apply above_src; auto.
Qed.
Lemma set_stacks : forall i j, (i <= l_layers d)%nat -> (j < l_derivs d)%nat ->
  (v_stacks v i j <> 0 <-> exists k, (k < i \/ i = 0 /\ k = 0)%nat /\ acts d flag k j).
Proof.
  intros i j I J. change (v_stacks v) with (build_stacks d (v_layers v) (v_stacks o)).
  rewrite build_stacks_eq. inr I J. destruct i as [|i].
  - assert (F := flags_tr _ _ (set_layers 0%nat j I J)). destruct (tr (v_layers v 0%nat j)).
    + split; [intros _; exists 0%nat; split; [lia|now apply F]|intros _; discriminate].
    + split; [congruence|intros (k & [K|[_ ->]] & H) E; [lia|]]. apply F in H. discriminate.
  - assert (F := below_acts (S i) j ltac:(lia) J). destruct (below (S i) _).
    + split; [intros _|intros _; discriminate]. destruct (proj1 F eq_refl) as (k & K & H). exists k. split; [lia|auto].
    + split; [congruence|intros (k & [K|[K _]] & H) E; [|discriminate]].
      enough (false = true) by discriminate. apply F. exists k. split; [lia|auto].
Qed.
(** Nothing outside the arrays is written. *)
Lemma set_frame : forall i j, (l_layers d < i)%nat \/ (l_derivs d <= j)%nat ->
  v_layers v i j = v_layers o i j /\ v_stacks v i j = v_stacks o i j /\ v_beam v i j = v_beam o i j /\
  v_thermal v i j = v_thermal o i j /\ v_sources v i j = v_sources o i j /\
  v_down v i j = v_down o i j /\ v_up v i j = v_up o i j /\ v_total v i j = v_total o i j.
Proof.
  intros i j H.
  assert ((j <? l_derivs d)%nat && (i <=? l_layers d)%nat = false) as N.
  { apply andb_false_iff. destruct H; [right; apply Nat.leb_gt; lia|left; apply Nat.ltb_ge; lia]. }
  unfold v, build_set; cbn [v_layers v_stacks v_beam v_thermal v_sources v_total v_down v_up].
  rewrite build_layers_eq, build_stacks_eq, build_sources_eq, build_down_eq, build_up_eq, build_total_eq.
  rewrite (andb_comm (i <=? l_layers d)%nat), N.
  assert ((i =? 0)%nat && (j <? l_derivs d)%nat = false) as N2.
  { apply andb_false_iff. destruct H; [left; apply Nat.eqb_neq; lia|right; apply Nat.ltb_ge; lia]. }
  rewrite N2.
  repeat match goal with |- _ /\ _ => split end; try reflexivity.
  - destruct (l_solar d); [rewrite build_beam_eq, N|]; reflexivity.
  - destruct (l_thermal d); [rewrite build_thermal_eq, N|]; reflexivity.
Qed.
End Set_.

(* ------------------------------------------------------------------------- *)
(** * Summaries                                                               *)

Definition count_true (f : row) (n : nat) : Z := Z.of_nat (length (filter (fun i => tr (f i)) (seq 0 n))).
Lemma count_S : forall f n, count_true f (S n) = count_true f n + Z.b2z (tr (f n)).
Proof.
  intros. unfold count_true. rewrite seq_S, filter_app, app_length, Nat2Z.inj_add. cbn [plus filter].
  destruct (tr (f n)); reflexivity.
Qed.
Lemma fill_meta_eq : forall f n,
  fill_meta f n = {| m_or := Z.b2z (below n (fun i => tr (f i))); m_and := 0; m_count := count_true f n |}.
Proof.
  intros. induction n as [|n IH]; [reflexivity|]. unfold fill_meta in *. cbn [loop]. rewrite IH, below_S, count_S.
  cbn [m_or m_and m_count]. destruct (tr (f n)); cbn [Z.b2z]; f_equal; rewrite ?orb_true_r, ?orb_false_r, ?Z.add_0_r; reflexivity.
Qed.
Definition count_true2 (f : table) (m n : nat) : Z :=
  fold_right Z.add 0 (map (fun i => count_true (f i) n) (seq 0 m)).
Lemma count2_S : forall f m n, count_true2 f (S m) n = count_true2 f m n + count_true (f m) n.
Proof.
  intros. unfold count_true2. rewrite seq_S, map_app. cbn [plus map]. 
  generalize (map (fun i => count_true (f i) n) (seq 0 m)). induction l as [|x l IH]; cbn [app fold_right]; [lia|rewrite IH; lia].
Qed.
Lemma flags_or_fill : forall f n, flags_or (fill_meta f n) n = Z.b2z (below n (fun i => tr (f i))).
Proof. intros. rewrite fill_meta_eq. destruct n; reflexivity. Qed.
Lemma flags_count_fill : forall f n, flags_count (fill_meta f n) n = count_true f n.
Proof. intros. rewrite fill_meta_eq. destruct n; reflexivity. Qed.
Lemma b2z_tr : forall b, tr (Z.b2z b) = b.
Proof. intros []; reflexivity. Qed.
Lemma count_0 : forall f n, below n (fun i => tr (f i)) = false -> count_true f n = 0.
Proof.
  induction n as [|n IH]; [reflexivity|]. rewrite below_S, count_S. intros H. apply orb_false_iff in H as [A B].
  rewrite IH by auto. rewrite B. reflexivity.
Qed.
Lemma fill_meta2_eq : forall f m n,
  snd (fill_meta2 f m n) =
  {| m_or := Z.b2z (below m (fun i => below n (fun j => tr (f i j)))); m_and := 0; m_count := count_true2 f m n |}.
Proof.
  intros. induction m as [|m IH]; [reflexivity|]. unfold fill_meta2 in *. cbn [snd loop] in *.
  rewrite IH. cbn [m_or m_and m_count]. rewrite flags_or_fill, b2z_tr, flags_count_fill, below_S, count2_S.
  destruct (below n _) eqn:E; cbn [Z.b2z]; f_equal; rewrite ?orb_true_r, ?orb_false_r; try reflexivity.
  rewrite (count_0 _ _ E). lia.
Qed.

(* ---- unions ---- *)
Lemma set_row1 : forall m g b k, loop m (fun i b => upd1 b i (g i)) b k = if (k <? m)%nat then g k else b k.
Proof.
  induction m as [|m IH]; intros g b k; [reflexivity|]. cbn [loop]. unfold upd1 at 1. rewrite IH.
  destruct (k =? m)%nat eqn:E.
  - apply Nat.eqb_eq in E. subst. now replace (m <? S m)%nat with true by (symmetry; apply Nat.ltb_lt; lia).
  - apply Nat.eqb_neq in E. destruct (k <? m)%nat eqn:F.
    + apply Nat.ltb_lt in F. now replace (k <? S m)%nat with true by (symmetry; apply Nat.ltb_lt; lia).
    + apply Nat.ltb_ge in F. now replace (k <? S m)%nat with false by (symmetry; apply Nat.ltb_ge; lia).
Qed.
Lemma union_logical_eq : forall m n f b k,
  union_logical_or2 m n (fst (fill_meta2 f m n)) b k =
  if (k <? m)%nat then Z.b2z (below n (fun j => tr (f k j))) else b k.
Proof.
  intros. unfold union_logical_or2. rewrite (set_row1 m (fun i => flags_or (fst (fill_meta2 f m n) i) n)).
  unfold fill_meta2. cbn [fst]. now rewrite flags_or_fill.
Qed.
Lemma union_bit : forall f n p, Z.testbit (union_bitwise_or f n) p = below n (fun i => Z.testbit (f i) p).
Proof.
  intros. unfold union_bitwise_or. induction n as [|n IH]; cbn [loop].
  - apply Z.bits_0.
  - rewrite Z.lor_spec, IH, below_S. reflexivity.
Qed.
Lemma union_bitwise_eq : forall m n f b k,
  union_bitwise_or2 m n f b k = if (k <? m)%nat then union_bitwise_or (f k) n else b k.
Proof. intros. unfold union_bitwise_or2. apply (set_row1 m (fun i => union_bitwise_or (f i) n)). Qed.
