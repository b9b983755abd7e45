(** The loops over the kernels, the cells and the azimuths. *)
From Coq Require Import Reals Lra List Arith Bool Lia FinFun.
From Verif Require Import BrdfSpec BrdfModel BrdfKernels.
Import ListNotations.
Open Scope R_scope.

(** the sum over a list *)
Definition sum {A} (f : A -> R) (l : list A) : R := fold_right (fun a s => f a + s) 0 l.
Lemma sum_ext : forall A (f g : A -> R) l, (forall a, In a l -> f a = g a) -> sum f l = sum g l.
Proof. intros A f g l. induction l as [|a l IH]; intro H; [reflexivity|]. cbn. rewrite H by (left; reflexivity). f_equal. apply IH. intros b Hb. apply H. right. exact Hb. Qed.
Lemma sum_plus : forall A (f g : A -> R) l, sum (fun a => f a + g a) l = sum f l + sum g l.
Proof. intros A f g l. induction l as [|a l IH]; cbn; [ring|]. unfold sum in IH. rewrite IH. ring. Qed.
Lemma sum_scale : forall A c (f : A -> R) l, sum (fun a => c * f a) l = c * sum f l.
Proof. intros A c f l. induction l as [|a l IH]; cbn; [ring|]. unfold sum in IH. rewrite IH. ring. Qed.
Lemma sum_zero : forall A (f : A -> R) l, (forall a, In a l -> f a = 0) -> sum f l = 0.
Proof. intros A f l. induction l as [|a l IH]; intro H; [reflexivity|]. cbn. rewrite H by (left; reflexivity). unfold sum in IH. rewrite IH; [ring|]. intros b Hb. apply H. right. exact Hb. Qed.
Lemma sum_cons : forall A (f : A -> R) a l, sum f (a :: l) = f a + sum f l.
Proof. reflexivity. Qed.
Lemma sum_swap : forall A B (f : A -> B -> R) l k, sum (fun a => sum (f a) k) l = sum (fun b => sum (fun a => f a b) l) k.
Proof.
  intros A B f l k. induction l as [|a l IH].
  - symmetry. apply sum_zero. intros; reflexivity.
  - rewrite sum_cons, IH, <- sum_plus. apply sum_ext. intros. reflexivity.
Qed.
Lemma sum_fold : forall A (f : A -> R) l z, fold_left (fun s a => s + f a) l z = z + sum f l.
Proof. intros A f l. induction l as [|a l IH]; intro z; cbn; [ring|]. rewrite IH. unfold sum. ring. Qed.

Lemma nodup_app : forall A (l k : list A), NoDup l -> NoDup k -> (forall a, In a l -> ~ In a k) -> NoDup (l ++ k).
Proof.
  intros A l k. induction l as [|a l IH]; intros Hl Hk H; [exact Hk|]. inversion Hl; subst. cbn. constructor.
  - rewrite in_app_iff. intros [X|X]; [contradiction|]. exact (H a (or_introl eq_refl) X).
  - apply IH; try assumption. intros b Hb. apply H. right. exact Hb.
Qed.
Lemma nodup_flat : forall A B (f : A -> list B) l, NoDup l -> (forall a, In a l -> NoDup (f a)) ->
  (forall a b x, In a l -> In b l -> In x (f a) -> In x (f b) -> a = b) -> NoDup (flat_map f l).
Proof.
  intros A B f l. induction l as [|a l IH]; intros Hl Hf H; [constructor|]. inversion Hl; subst. cbn. apply nodup_app.
  - apply Hf. left. reflexivity.
  - apply IH; [assumption| |]. + intros b Hb. apply Hf. right. exact Hb. + intros b c x Hb Hc. apply H; right; assumption.
  - intros x Hx X. apply in_flat_map in X. destruct X as (b & Hb & X). assert (a = b) by (apply (H a b x); [left; reflexivity|right; exact Hb|exact Hx|exact X]). subst. contradiction.
Qed.
Lemma map_flat : forall A B C (f : A -> list B) (g : B -> C) l, map g (flat_map f l) = flat_map (fun a => map g (f a)) l.
Proof. intros A B C f g l. induction l as [|a l IH]; [reflexivity|]. cbn. rewrite map_app, IH. reflexivity. Qed.

Section Loops.
Variables (qx : nat -> R) (nk : nat) (kqx : nat -> R) (geom : geometry) (n_derivs : nat) (derivs : nat -> bool).
Definition place (c : cell) := (at_row c, at_col c).
Definition key (v : visit) := (row v, place (spot v)).
Definition active (e : entry) (r : nat) : bool := Bool.eqb (needs_fourier (kind e)) (negb (r =? 0)%nat).
Definition visit_at (r : nat) (c : cell) : visit :=
  if (r =? 0)%nat then {| row := 0; spot := c; point := 0; azim := 0 |}
  else if (r <=? nk)%nat then {| row := r; spot := c; point := r - 1; azim := kqx (r - 1)%nat |}
  else {| row := r; spot := c; point := r - nk - 1; azim := - kqx (r - nk - 1)%nat |}.
Lemma visit_at_key : forall r c, key (visit_at r c) = (r, place c).
Proof. intros r c. unfold visit_at. destruct (Nat.eqb_spec r 0) as [->|]; [reflexivity|]. destruct (r <=? nk)%nat; reflexivity. Qed.
Lemma visit_at_spot : forall r c, spot (visit_at r c) = c.
Proof. intros r c. unfold visit_at. destruct (Nat.eqb_spec r 0) as [->|]; [reflexivity|]. destruct (r <=? nk)%nat; reflexivity. Qed.
Lemma visit_plus : forall k c, (k < nk)%nat -> visit_at (k + 1) c = {| row := k + 1; spot := c; point := k; azim := kqx k |}.
Proof.
  intros k c H. unfold visit_at. destruct (Nat.eqb_spec (k + 1) 0); [lia|]. destruct (Nat.leb_spec (k + 1) nk); [|lia]. replace (k + 1 - 1)%nat with k by lia. reflexivity.
Qed.
Lemma visit_minus : forall k c, visit_at (nk + k + 1) c = {| row := nk + k + 1; spot := c; point := k; azim := - kqx k |}.
Proof.
  intros k c. unfold visit_at. destruct (Nat.eqb_spec (nk + k + 1) 0); [lia|]. destruct (Nat.leb_spec (nk + k + 1) nk); [lia|]. replace (nk + k + 1 - nk - 1)%nat with k by lia. reflexivity.
Qed.
Lemma in_visits : forall e cells v, In v (visits nk kqx e cells) <-> exists r c, In c cells /\ (r <= 2 * nk)%nat /\ active e r = true /\ v = visit_at r c.
Proof.
  intros e cells v. unfold visits, active. destruct (needs_fourier (kind e)) eqn:N; split.
  - intro H. apply in_flat_map in H. destruct H as (c & Hc & H). apply in_flat_map in H. destruct H as (k & Hk & H). apply in_seq in Hk. destruct H as [<-|[<-|[]]].
    + exists (k + 1)%nat, c. rewrite visit_plus by lia. repeat split; try assumption; try lia. destruct (Nat.eqb_spec (k + 1) 0); [lia|reflexivity].
    + exists (nk + k + 1)%nat, c. rewrite visit_minus by lia. repeat split; try assumption; try lia. destruct (Nat.eqb_spec (nk + k + 1) 0); [lia|reflexivity].
  - intros (r & c & Hc & Hr & A & ->). destruct (Nat.eqb_spec r 0); [discriminate|]. apply in_flat_map. exists c. split; [exact Hc|]. apply in_flat_map.
    destruct (Nat.leb_spec r nk).
    + exists (r - 1)%nat. split; [apply in_seq; lia|]. left. assert (visit_at r c = visit_at (r - 1 + 1) c) as -> by (f_equal; lia). rewrite visit_plus by lia. reflexivity.
    + exists (r - nk - 1)%nat. split; [apply in_seq; lia|]. right. left. assert (visit_at r c = visit_at (nk + (r - nk - 1) + 1) c) as -> by (f_equal; lia). rewrite visit_minus by lia. reflexivity.
  - intro H. apply in_map_iff in H. destruct H as (c & <- & Hc). exists 0%nat, c. repeat split; try assumption. lia.
  - intros (r & c & Hc & Hr & A & ->). destruct (Nat.eqb_spec r 0) as [->|]; [|discriminate]. apply in_map_iff. exists c. split; [reflexivity|exact Hc].
Qed.
Lemma visits_nodup : forall e cells, NoDup (map place cells) -> NoDup (map key (visits nk kqx e cells)).
Proof.
  intros e cells H. unfold visits. destruct (needs_fourier (kind e)).
  - rewrite map_flat. assert (forall c, map key (flat_map (fun k => [ {| row := k + 1; spot := c; point := k; azim := kqx k |};
      {| row := nk + k + 1; spot := c; point := k; azim := - kqx k |} ]) (seq 0 nk)) = flat_map (fun k => [((k + 1)%nat, place c); ((nk + k + 1)%nat, place c)]) (seq 0 nk)) as E.
    { intro c. rewrite map_flat. reflexivity. }
    erewrite flat_map_ext by (intro c; apply E). clear E.
    assert (flat_map (fun c => flat_map (fun k => [((k + 1)%nat, place c); ((nk + k + 1)%nat, place c)]) (seq 0 nk)) cells =
      flat_map (fun q => flat_map (fun k => [((k + 1)%nat, q); ((nk + k + 1)%nat, q)]) (seq 0 nk)) (map place cells)) as ->.
    { clear H. induction cells as [|c l IH]; [reflexivity|]. cbn [map flat_map]. rewrite IH. reflexivity. }
    apply nodup_flat; [exact H| |].
    + intros q _. apply nodup_flat; [apply seq_NoDup| |].
      * intros k Hk. apply in_seq in Hk. constructor; [|constructor; [intros []|constructor]]. intros [X|[]]. injection X. lia.
      * intros a b x Ha Hb Xa Xb. apply in_seq in Ha, Hb. destruct Xa as [<-|[<-|[]]], Xb as [X|[X|[]]]; injection X; lia.
    + intros a b x _ _ Xa Xb. apply in_flat_map in Xa, Xb. destruct Xa as (k & _ & Xa), Xb as (k' & _ & Xb).
      destruct Xa as [<-|[<-|[]]], Xb as [X|[X|[]]]; injection X; intros; congruence.
  - rewrite map_map. unfold key. cbn [row spot]. rewrite <- (map_map place (fun q => (0%nat, q))). apply FinFun.Injective_map_NoDup; [|exact H]. intros a b X. congruence.
Qed.

Notation step := (evaluate qx kqx geom n_derivs derivs).
Lemma here_iff : forall v r x y, here v r x y = true <-> key v = (r, (x, y)).
Proof.
  intros v r x y. unfold here, key, place. rewrite !andb_true_iff, !Nat.eqb_eq. split; [intros ((-> & ->) & ->); reflexivity|]. intro E. injection E as <- <- <-. auto.
Qed.
Lemma here_not : forall v r x y, key v <> (r, (x, y)) -> here v r x y = false.
Proof. intros v r x y H. destruct (here v r x y) eqn:E; [|reflexivity]. apply here_iff in E. contradiction. Qed.
Lemma untouched : forall e vs st r x y, ~ In (r, (x, y)) (map key vs) ->
  kf (fold_left (step e) vs st) r x y = kf st r x y /\ (forall l, kf_l (fold_left (step e) vs st) l r x y = kf_l st l r x y).
Proof.
  intros e vs. induction vs as [|v vs IH]; intros st r x y H; [split; reflexivity|]. cbn [fold_left map] in *.
  destruct (IH (step e st v) r x y) as [A B]. { intro X. apply H. right. exact X. }
  assert (here v r x y = false) as E by (apply here_not; intro X; apply H; left; exact X).
  split; [rewrite A|intro l; rewrite B]; cbn [evaluate kf kf_l]; rewrite E; rewrite ?andb_false_r; reflexivity.
Qed.
(** An invariant of the work array *)
Definition brings (e : entry) (l : nat) (b w : num) : Prop := forall v, match report qx kqx geom n_derivs derivs e v l with Some x => x | None => b end = w.
Lemma touched : forall e vs st v r x y, NoDup (map key vs) -> In v vs -> key v = (r, (x, y)) ->
  kf (fold_left (step e) vs st) r x y = nadd (kf st r x y) (nmul (value qx kqx geom e v) (Some (ampfac e))).
Proof.
  intros e vs. induction vs as [|w vs IH]; intros st v r x y N I K; [destruct I|]. cbn [fold_left map] in *. inversion N as [|? ? Nw Nv]; subst. destruct I as [->|I].
  - rewrite K in Nw. destruct (untouched e vs (step e st v) r x y Nw) as [-> _]. cbn [evaluate kf]. rewrite (proj2 (here_iff v r x y) K). reflexivity.
  - rewrite (IH _ v r x y Nv I K). cbn [evaluate kf]. rewrite here_not; [reflexivity|]. intro X. apply Nw. rewrite X, <- K. apply in_map, I.
Qed.
(** the derivatives: [P l] holds of the work array before and after *)
Lemma touched_l : forall e l vs st v r x y (P : num -> Prop) d, (l < n_derivs)%nat -> derivs l = true -> NoDup (map key vs) -> In v vs -> key v = (r, (x, y)) ->
  P (f_l st l) ->
  (forall w b, P b -> P (match report qx kqx geom n_derivs derivs e w l with Some z => z | None => b end)) ->
  (forall b, P b -> match report qx kqx geom n_derivs derivs e v l with Some z => z | None => b end = d) ->
  kf_l (fold_left (step e) vs st) l r x y = nadd (kf_l st l r x y) (nadd (nmul d (Some (ampfac e))) (nmul (value qx kqx geom e v) (Some (ampfac_l e l)))).
Proof.
  intros e l vs. induction vs as [|w vs IH]; intros st v r x y P d Hl Hd N I K P0 Pk Pd; [destruct I|]. cbn [fold_left map] in *. inversion N as [|? ? Nw Nv]; subst.
  assert ((l <? n_derivs)%nat = true) as Hl' by (apply Nat.ltb_lt; exact Hl). destruct I as [->|I].
  - rewrite K in Nw. destruct (untouched e vs (step e st v) r x y Nw) as [_ ->]. cbn [evaluate kf_l]. rewrite (proj2 (here_iff v r x y) K), Hl', Hd. cbn [andb]. rewrite (Pd _ P0). reflexivity.
  - rewrite (IH (step e st w) v r x y P d Hl Hd Nv I K). + cbn [evaluate kf_l]. rewrite here_not; [rewrite andb_false_r; reflexivity|]. intro X. apply Nw. rewrite X, <- K. apply in_map, I.
    + cbn [evaluate f_l]. apply Pk, P0. + exact Pk. + exact Pd.
Qed.
Lemma kept : forall e l vs st (P : num -> Prop), P (f_l st l) ->
  (forall w b, P b -> P (match report qx kqx geom n_derivs derivs e w l with Some z => z | None => b end)) -> P (f_l (fold_left (step e) vs st) l).
Proof. intros e l vs. induction vs as [|w vs IH]; intros st P P0 Pk; [exact P0|]. cbn [fold_left]. apply IH; [|exact Pk]. cbn [evaluate f_l]. apply Pk, P0. Qed.
Lemma written : forall e l vs st (P : num -> Prop), vs <> [] -> (forall w b, P (match report qx kqx geom n_derivs derivs e w l with Some z => z | None => b end)) ->
  P (f_l (fold_left (step e) vs st) l).
Proof. intros e l [|w vs] st P N Pk; [contradiction|]. cbn [fold_left]. apply kept; [cbn [evaluate f_l]; apply Pk|]. intros; apply Pk. Qed.

Section Cell.
Variables (cells : list cell) (c : cell) (r : nat).
Hypothesis Hn : NoDup (map place cells).
Hypothesis Hc : In c cells.
Hypothesis Hr : (r <= 2 * nk)%nat.
Notation run e := (fold_left (step e) (visits nk kqx e cells)).
Lemma idle : forall e st, active e r = false -> kf (run e st) r (at_row c) (at_col c) = kf st r (at_row c) (at_col c) /\
  (forall l, kf_l (run e st) l r (at_row c) (at_col c) = kf_l st l r (at_row c) (at_col c)).
Proof.
  intros e st A. apply untouched. intro X. apply in_map_iff in X. destruct X as (v & K & X). apply in_visits in X. destruct X as (r' & c' & _ & _ & A' & ->).
  rewrite visit_at_key in K. injection K as -> _ _. congruence.
Qed.
Lemma busy : forall e st, active e r = true ->
  kf (run e st) r (at_row c) (at_col c) = nadd (kf st r (at_row c) (at_col c)) (nmul (value qx kqx geom e (visit_at r c)) (Some (ampfac e))).
Proof.
  intros e st A. apply touched; [apply visits_nodup, Hn| |rewrite visit_at_key; reflexivity]. apply in_visits. exists r, c. auto.
Qed.
Theorem built : forall es old F, (forall e, In e es -> active e r = true -> value qx kqx geom e (visit_at r c) = Some (F e)) ->
  kf (build qx nk kqx geom n_derivs derivs es cells old) r (at_row c) (at_col c) = Some (sum (fun e => if active e r then ampfac e * F e else 0) es).
Proof.
  intros es old F H. unfold build.
  assert (forall st z, kf st r (at_row c) (at_col c) = Some z ->
    kf (fold_left (fun st e => run e st) es st) r (at_row c) (at_col c) = Some (z + sum (fun e => if active e r then ampfac e * F e else 0) es)) as G.
  { clear old. revert H. induction es as [|e es IH]; intros H st z E; [cbn; rewrite E; f_equal; ring|]. cbn [fold_left].
    assert (kf (run e st) r (at_row c) (at_col c) = Some (z + (if active e r then ampfac e * F e else 0))) as E'.
    { destruct (active e r) eqn:A.
      - rewrite busy by exact A. rewrite E, (H e (or_introl eq_refl) A). cbn. f_equal. ring.
      - destruct (idle e st A) as [-> _]. rewrite E. f_equal. ring. }
    rewrite (IH (fun e' I => H e' (or_intror I)) _ _ E'). f_equal. cbn [sum fold_right]. unfold sum. ring. }
  rewrite (G _ 0); [f_equal; ring|reflexivity].
Qed.
End Cell.
End Loops.

(** the Fourier sum of one element *)
Section Fourier.
Variables (nk : nat) (kqx kqw : nat -> R).
Lemma component_sum : forall m f g0 g, f 0%nat = Some g0 -> (forall k, (k < nk)%nat -> f (k + 1)%nat = Some (g k)) -> (forall k, (k < nk)%nat -> f (nk + k + 1)%nat = Some (g k)) ->
  component nk kqx kqw m true f = Some (zeroth m * g0 + sum (fun k => kqw k * cos (INR m * kqx k) * g k) (seq 0 nk)).
Proof.
  intros m f g0 g H0 Hp Hm. unfold component.
  assert (forall l z, (forall k, In k l -> (k < nk)%nat) ->
    fold_left (fun s k => nadd (nadd s (nmul (f (k + 1)%nat) (Some (kqw k * cos (INR m * kqx k) / 2)))) (nmul (f (nk + k + 1)%nat) (Some (kqw k * cos (INR m * - kqx k) / 2)))) l (Some z) =
    Some (z + sum (fun k => kqw k * cos (INR m * kqx k) * g k) l)) as G.
  { induction l as [|k l IH]; intros z H; [cbn; f_equal; ring|]. cbn [fold_left]. rewrite Hp, Hm by (apply H; left; reflexivity). cbn [nmul nadd bind].
    rewrite IH by (intros j Hj; apply H; right; exact Hj). f_equal. cbn [sum fold_right]. replace (INR m * - kqx k) with (- (INR m * kqx k)) by ring. rewrite cos_neg. unfold sum. field. }
  assert (forall k, In k (seq 0 nk) -> (k < nk)%nat) as L by (intros k Hk; apply in_seq in Hk; lia).
  unfold zeroth. destruct (m =? 0)%nat; [rewrite H0|]; rewrite G by exact L; f_equal; ring.
Qed.
End Fourier.

Lemma vec_nodup : forall i n j, NoDup (map place (vec_cells i n j)).
Proof. intros i n j. unfold vec_cells. rewrite map_map. unfold place. cbn [at_row at_col]. apply FinFun.Injective_map_NoDup; [|apply seq_NoDup]. intros a b X. congruence. Qed.
Lemma mat_nodup : forall i n1 j n2, NoDup (map place (mat_cells i n1 j n2)).
Proof.
  intros i n1 j n2. unfold mat_cells. rewrite map_flat. apply nodup_flat; [apply seq_NoDup| |].
  - intros a _. rewrite map_map. unfold place. cbn [at_row at_col]. apply FinFun.Injective_map_NoDup; [|apply seq_NoDup]. intros x y X. congruence.
  - intros a b x _ _ Xa Xb. rewrite map_map in Xa, Xb. apply in_map_iff in Xa, Xb. destruct Xa as (k & <- & _), Xb as (k' & X & _). unfold place in X. cbn in X. congruence.
Qed.
