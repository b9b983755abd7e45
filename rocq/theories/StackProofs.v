(** Invariants of the planning of stacks. *)
From Coq Require Import List Bool Arith Lia.
From Verif Require Import Base StackModel.
Import ListNotations.
Open Scope nat_scope.

(** * The table *)
Lemma nth_upd {A} (f : A -> A) s t k :
  nth_error (match nth_error t s with Some x => firstn s t ++ f x :: skipn (S s) t | None => t end) k =
  (if Nat.eqb k s then option_map f (nth_error t k) else nth_error t k).
Proof.
  revert s k. induction t as [|a t IH]; intros s k.
  - destruct s; cbn; destruct (Nat.eqb k _); destruct k; reflexivity.
  - destruct s as [|s]; cbn [nth_error].
    + destruct k; reflexivity.
    + destruct k as [|k]; [destruct (nth_error t s); reflexivity|]. specialize (IH s k). cbn [Nat.eqb nth_error].
      destruct (nth_error t s); cbn [firstn skipn app nth_error]; exact IH.
Qed.
Lemma len_upd {A} (f : A -> A) s t : length (match nth_error t s with Some x => firstn s t ++ f x :: skipn (S s) t | None => t end) = length t.
Proof.
  destruct (nth_error t s) eqn:E; [|reflexivity]. assert (s < length t) by (apply nth_error_Some; congruence).
  rewrite app_length, firstn_length. cbn [length]. rewrite skipn_length. lia.
Qed.
Definition inc (k : stk) : stk := {| i1 := i1 k; i2 := i2 k; needed := needed k; count := S (count k); parents := parents k |}.
Definition mark (k : stk) : stk := {| i1 := i1 k; i2 := i2 k; needed := true; count := count k; parents := parents k |}.
Lemma nth_bump s t k : nth_error (bump s t) k = if Nat.eqb k s then option_map inc (nth_error t k) else nth_error t k.
Proof. exact (nth_upd inc s t k). Qed.
Lemma len_bump s t : length (bump s t) = length t.
Proof. exact (len_upd inc s t). Qed.
Lemma nth_need s t k : nth_error (need s t) k = if Nat.eqb k s then option_map mark (nth_error t k) else nth_error t k.
Proof. exact (nth_upd mark s t k). Qed.
Lemma len_need s t : length (need s t) = length t.
Proof. exact (len_upd mark s t). Qed.
(** what is not counted *)
Definition core (x : stk) : nat * nat * option (nat * nat) := (i1 x, i2 x, parents x).
Lemma core_bump s t k : option_map core (nth_error (bump s t) k) = option_map core (nth_error t k).
Proof. rewrite nth_bump. destruct (Nat.eqb k s); [|reflexivity]. now destruct (nth_error t k). Qed.
Lemma core_need s t k : option_map core (nth_error (need s t) k) = option_map core (nth_error t k).
Proof. rewrite nth_need. destruct (Nat.eqb k s); [|reflexivity]. now destruct (nth_error t k). Qed.

(** * next_layer *)
Lemma nl_spec g j : forall k i, match nl g j k i with
  | Some x => i <= x < i + k /\ active (g x j) = true /\ varies (g x j) = false /\ (forall y, i <= y < x -> active (g y j) = false /\ varies (g y j) = false)
  | None => forall x, i <= x < i + k -> active (g x j) = true -> varies (g x j) = false -> exists y, i <= y < x /\ varies (g y j) = true
  end.
Proof.
  induction k as [|k IH]; intros i; cbn [nl]; [intros; lia|].
  destruct (varies (g i j)) eqn:V.
  - intros x H A VX. exists i. split; [|exact V]. destruct (Nat.eq_dec x i) as [->|]; [congruence | lia].
  - destruct (active (g i j)) eqn:A.
    + repeat split; auto; lia.
    + specialize (IH (S i)). destruct (nl g j k (S i)) as [x|].
      * destruct IH as (H & H1 & H2 & H3). repeat split; auto; try lia; destruct (Nat.eq_dec y i) as [->|]; auto; apply H3; lia.
      * intros x H AX VX. destruct (Nat.eq_dec x i) as [->|]; [congruence|]. destruct (IH x) as (y & Hy & Vy); auto; [lia|]. exists y. split; [lia | exact Vy].
Qed.

Section Plan.
Variables (n nd : nat) (derivs : nat -> nat -> bool).

Definition stop (g : grid) (j b : nat) : Prop := S b = n \/ derivs (S b) j = true \/ active (g (S b) j) = true.
Definition closed (g : grid) (j a b : nat) : Prop :=
  a <= b < n /\ active (g a j) = true /\ (forall y, a <= y <= b -> derivs y j = false) /\ stop g j b.
Definition uses (t : list stk) (k : nat) : nat :=
  length (filter (fun x => match parents x with Some (p, q) => Nat.eqb p k | None => false end) t) +
  length (filter (fun x => match parents x with Some (p, q) => Nat.eqb q k | None => false end) t).

Record pinv (p : plan) : Prop := {
  p_len : n <= length (tab p);
  p_first : forall k, k < n -> option_map core (nth_error (tab p) k) = Some (k, k, None);
  p_rest : forall k x, nth_error (tab p) k = Some x -> n <= k -> exists a b xa xb, parents x = Some (a, b) /\ a < k /\ b < k /\
    nth_error (tab p) a = Some xa /\ nth_error (tab p) b = Some xb /\ i1 x = i1 xa /\ i2 x = i2 xb /\ i1 xb = S (i2 xa);
  p_rng : forall k x, nth_error (tab p) k = Some x -> i1 x <= i2 x < n /\ needed x = false;
  p_run : forall k x, nth_error (tab p) k = Some x -> n <= k -> exists j, j < nd /\ forall r, i1 x <= r <= i2 x -> derivs r j = false;
  p_var : forall i j, varies (gr p i j) = derivs i j;
  p_act : forall i j, i < n -> active (gr p i j) = true -> derivs i j = false /\ exists s x, sid (gr p i j) = Some s /\
    nth_error (tab p) s = Some x /\ i1 x = i /\ (forall y, i < y <= i2 x -> active (gr p y j) = false /\ derivs y j = false) /\ stop (gr p) j (i2 x);
  p_head : forall i j, i < n -> derivs i j = false -> (i = 0 \/ derivs (i - 1) j = true) -> active (gr p i j) = true;
  p_same : forall j j' a b, closed (gr p) j a b -> closed (gr p) j' a b -> forall r, a <= r <= b ->
    active (gr p r j) = active (gr p r j') /\ (active (gr p r j) = true -> sid (gr p r j) = sid (gr p r j'));
  p_tab : forall k x j, nth_error (tab p) k = Some x -> closed (gr p) j (i1 x) (i2 x) -> sid (gr p (i1 x) j) = Some k;
  p_nodup : forall k k' x x', nth_error (tab p) k = Some x -> nth_error (tab p) k' = Some x' -> i1 x = i1 x' -> i2 x = i2 x' -> k = k';
  p_count : forall k x, nth_error (tab p) k = Some x -> count x = uses (tab p) k }.

(** ** The start *)
Lemma nth_first k : nth_error (first_stacks n) k = if k <? n then Some {| i1 := k; i2 := k; needed := false; count := 0; parents := None |} else None.
Proof.
  unfold first_stacks. destruct (Nat.ltb_spec k n) as [H|H].
  - erewrite map_nth_error; [reflexivity|]. rewrite (nth_error_nth' _ 0); [|rewrite seq_length; exact H]. now rewrite seq_nth.
  - apply nth_error_None. rewrite map_length, seq_length. exact H.
Qed.
Lemma uses_none t k : (forall x, In x t -> parents x = None) -> uses t k = 0.
Proof.
  intros H. unfold uses. rewrite !(proj2 (Nat.eq_add_0 _ _)); auto.
  assert (forall f : stk -> bool, (forall x, In x t -> f x = false) -> length (filter f t) = 0).
  { clear. intros f. induction t as [|x t IH]; intros H; [reflexivity|]. cbn. rewrite H by now left. apply IH. intros; apply H; now right. }
  split; apply H0; intros x I; now rewrite (H x I).
Qed.
Lemma first_pinv : pinv {| tab := first_stacks n; gr := first_grid derivs |}.
Proof.
  assert (L : length (first_stacks n) = n) by (unfold first_stacks; rewrite map_length; apply seq_length).
  assert (N : forall k x, nth_error (first_stacks n) k = Some x -> k < n /\ x = {| i1 := k; i2 := k; needed := false; count := 0; parents := None |}).
  { intros k x. rewrite nth_first. destruct (Nat.ltb_spec k n); [|discriminate]. intros E. now injection E as <-. }
  assert (A : forall i j, derivs i j = false -> first_grid derivs i j = {| active := true; varies := false; sid := Some i |}) by (intros i j H; unfold first_grid; now rewrite H).
  split; cbn [tab gr].
  - lia.
  - intros k H. rewrite nth_first. apply Nat.ltb_lt in H. now rewrite H.
  - intros k x E H. apply N in E. lia.
  - intros k x E. apply N in E. destruct E as [E ->]. cbn. auto.
  - intros k x E H. apply N in E. lia.
  - intros i j. unfold first_grid. now destruct (derivs i j).
  - intros i j H. unfold first_grid at 1. destruct (derivs i j) eqn:D; [discriminate|]. intros _. split; [reflexivity|].
    exists i, {| i1 := i; i2 := i; needed := false; count := 0; parents := None |}. rewrite (A i j D). split; [reflexivity|].
    split; [rewrite nth_first; apply Nat.ltb_lt in H; now rewrite H|]. split; [reflexivity|]. cbn. split; [intros; lia|].
    unfold stop. destruct (Nat.eq_dec (S i) n); [now left|]. destruct (derivs (S i) j) eqn:D'; [auto|]. rewrite (A _ _ D'). auto.
  - intros i j _ D _. now rewrite (A i j D).
  - intros j j' a b (H1 & H2 & H3 & H4) (_ & _ & H3' & _) r Hr. rewrite (A r j), (A r j'); auto.
  - intros k x j E (H1 & H2 & H3 & H4). apply N in E. destruct E as [E ->]. cbn in *. rewrite A; auto.
  - intros k k' x x' E E' H1 H2. apply N in E, E'. destruct E as [_ ->], E' as [_ ->]. exact H1.
  - intros k x E. apply N in E. destruct E as [_ ->]. cbn. symmetry. apply uses_none. intros x I. unfold first_stacks in I. apply in_map_iff in I. now destruct I as (? & <- & _).
Qed.

(** ** A pair of adjacent stacks in a column *)
Definition pair_at (g : grid) (r j s1 s2 : nat) : Prop :=
  r < n /\ active (g r j) = true /\ sid (g r j) = Some s1 /\ exists i, next_layer g n (S r) j = Some i /\ sid (g i j) = Some s2.
Lemma next_spec g i j : match next_layer g n i j with
  | Some x => i <= x < n /\ active (g x j) = true /\ varies (g x j) = false /\ (forall y, i <= y < x -> active (g y j) = false /\ varies (g y j) = false)
  | None => forall x, i <= x < n -> active (g x j) = true -> varies (g x j) = false -> exists y, i <= y < x /\ varies (g y j) = true
  end.
Proof.
  unfold next_layer. pose proof (nl_spec g j (n - i) i) as H. destruct (nl g j (n - i) i) as [x|].
  - destruct H as (H & R). split; [lia | exact R].
  - intros x Hx. apply H. lia.
Qed.
Lemma next_of_act p r j s x : pinv p -> r < n -> sid (gr p r j) = Some s -> active (gr p r j) = true -> nth_error (tab p) s = Some x ->
  next_layer (gr p) n (S r) j = if (S (i2 x) <? n) && active (gr p (S (i2 x)) j) then Some (S (i2 x)) else None.
Proof.
  intros P Hr Es A Ex. destruct (p_act p P r j Hr A) as (D & s' & x' & Es' & Ex' & E1 & B & St).
  assert (s' = s) by congruence. subst s'. assert (x' = x) by congruence. subst x'.
  destruct (p_rng p P s x Ex) as (R & _). pose proof (next_spec (gr p) (S r) j) as N.
  destruct (next_layer (gr p) n (S r) j) as [i|].
  - destruct N as (N1 & N2 & N3 & N4). assert (Hi : i2 x < i).
    { destruct (le_lt_dec i (i2 x)); [|lia]. destruct (B i ltac:(lia)). congruence. }
    assert (Hi' : i = S (i2 x)).
    { destruct (Nat.eq_dec i (S (i2 x))); [assumption|]. destruct (N4 (S (i2 x)) ltac:(lia)) as [Q1 Q2]. rewrite (p_var p P) in Q2.
      destruct St as [St|[St|St]]; [lia | congruence | congruence]. }
    subst i. rewrite N2. assert (S (i2 x) <? n = true) as -> by (apply Nat.ltb_lt; lia). reflexivity.
  - destruct (Nat.ltb_spec (S (i2 x)) n) as [L|L]; [|reflexivity]. cbn [andb].
    destruct (active (gr p (S (i2 x)) j)) eqn:A'; [|reflexivity]. exfalso.
    destruct (p_act p P _ j L A') as (D' & _). destruct (N (S (i2 x))) as (y & Hy & Vy); [lia | exact A' | now rewrite (p_var p P)|].
    rewrite (p_var p P) in Vy. destruct (B y ltac:(lia)). congruence.
Qed.
Lemma pair_facts p r j s1 s2 : pinv p -> pair_at (gr p) r j s1 s2 -> exists a b,
  nth_error (tab p) s1 = Some a /\ nth_error (tab p) s2 = Some b /\ i1 a = r /\ i1 b = S (i2 a) /\ i2 b < n /\ i2 a < i2 b /\ s1 <> s2 /\
  active (gr p r j) = true /\ active (gr p (S (i2 a)) j) = true /\ sid (gr p (S (i2 a)) j) = Some s2 /\
  next_layer (gr p) n (S r) j = Some (S (i2 a)) /\
  (forall y, r <= y <= i2 b -> derivs y j = false) /\ (forall y, r < y <= i2 b -> y <> S (i2 a) -> active (gr p y j) = false) /\ stop (gr p) j (i2 b) /\
  closed (gr p) j r (i2 b) /\ closed (gr p) j r (i2 a).
Proof.
  intros P (Hr & A & E1 & i & N & E2). destruct (p_act p P r j Hr A) as (D & s & a & Es & Ea & I1 & B & St).
  assert (s = s1) by congruence. subst s. rewrite (next_of_act p r j s1 a P Hr E1 A Ea) in N.
  destruct (Nat.ltb_spec (S (i2 a)) n) as [L|L]; [|discriminate]. cbn [andb] in N. destruct (active (gr p (S (i2 a)) j)) eqn:A'; [|discriminate]. injection N as <-.
  destruct (p_act p P _ j L A') as (D' & s & b & Es' & Eb & I1' & B' & St'). assert (s = s2) by congruence. subst s.
  destruct (p_rng p P _ _ Ea) as (Ra & _). destruct (p_rng p P _ _ Eb) as (Rb & _).
  exists a, b. do 4 (split; [assumption|]). split; [lia|]. split; [lia|].
  split; [intros ->; assert (a = b) by congruence; subst b; lia|]. split; [exact A|]. split; [exact A'|]. split; [exact E2|].
  split; [rewrite (next_of_act p r j s1 a P Hr E1 A Ea); apply Nat.ltb_lt in L; now rewrite L, A'|].
  assert (DD : forall y, r <= y <= i2 b -> derivs y j = false).
  { intros y Hy. destruct (Nat.eq_dec y r) as [->|]; [exact D|]. destruct (le_lt_dec y (i2 a)); [apply B; lia|].
    destruct (Nat.eq_dec y (S (i2 a))) as [->|]; [exact D' | apply B'; lia]. }
  split; [exact DD|]. split; [intros y Hy Ny; destruct (le_lt_dec y (i2 a)); [apply B; lia | apply B'; lia]|]. split; [exact St'|].
  split; (split; [lia|]; split; [exact A|]; split; [intros y Hy; apply DD; lia|]); [exact St' | unfold stop; auto].
Qed.

(** ** The search *)
Definition someb (g : grid) (r : nat) (js : list nat) (o : option (nat * nat)) : Prop :=
  exists p q j, o = Some (p, q) /\ In j js /\ pair_at g r j p q.
Lemma someb_mono g r js js' o : incl js js' -> someb g r js o -> someb g r js' o.
Proof. intros I (p & q & j & E & J & H). exists p, q, j. auto. Qed.
Definition scan_ok (g : grid) (r : nat) (js : list nat) (x : scan) : Prop :=
  (0 < cnt x -> someb g r js (cur x)) /\ (0 < maxc x -> someb g r js (best x)) /\
  (forall j s1 s2, In j js -> pair_at g r j s1 s2 -> 0 < cnt x \/ 0 < maxc x).
Lemma keep_ok g r js x : scan_ok g r js x -> scan_ok g r js (keep x) /\ (0 < cnt x -> 0 < maxc (keep x)) /\ (0 < maxc x -> 0 < maxc (keep x)) /\ cnt (keep x) = cnt x.
Proof.
  intros (A & B & C). unfold keep. destruct (Nat.ltb_spec (maxc x) (cnt x)).
  - cbn. split; [|repeat split; lia]. split; [exact A|]. split; [intros _; apply A; lia|]. intros; cbn; lia.
  - split; [now split|]. repeat split; auto; lia.
Qed.
Lemma flush_ok g r js x : scan_ok g r js x -> scan_ok g r js (flush x).
Proof.
  intros H. destruct (keep_ok _ _ _ _ H) as ((A & B & C) & K1 & K2 & K3). unfold flush. split; cbn; [lia|]. split; [exact B|].
  intros j s1 s2 I P. right. destruct (C j s1 s2 I P) as [Q|Q]; [rewrite K3 in Q; auto | exact Q].
Qed.
Lemma scan_more g r js js' x : incl js js' -> (forall j s1 s2, In j js' -> pair_at g r j s1 s2 -> In j js \/ 0 < cnt x \/ 0 < maxc x) -> scan_ok g r js x -> scan_ok g r js' x.
Proof.
  intros I N (A & B & C). split; [intros H; eapply someb_mono; eauto|]. split; [intros H; eapply someb_mono; eauto|].
  intros j s1 s2 J P. destruct (N j s1 s2 J P) as [K|K]; [eauto | exact K].
Qed.
Lemma same_pair_eq o p q : same_pair o p q = true <-> o = Some (p, q).
Proof.
  destruct o as [[x y]|]; cbn; [|split; discriminate]. rewrite andb_true_iff, !Nat.eqb_eq. split; [intros [-> ->]; reflexivity | intros E; now injection E].
Qed.
Lemma column_ok p r js j x : pinv p -> r < n -> scan_ok (gr p) r js x -> exists x', column (gr p) n r j x = Ok x' /\ scan_ok (gr p) r (js ++ [j]) x'.
Proof.
  intros P Hr H. unfold column.
  assert (NO : forall x', scan_ok (gr p) r js x' -> (forall s1 s2, ~ pair_at (gr p) r j s1 s2) -> scan_ok (gr p) r (js ++ [j]) x').
  { intros x' Hx N. eapply scan_more; [|intros j' s1 s2 I Q|exact Hx]; [intros a Ia; apply in_app_iff; auto|].
    apply in_app_iff in I. destruct I as [I|[<-|[]]]; [auto | exfalso; eapply N; eauto]. }
  destruct (varies (gr p r j)) eqn:V.
  - eexists. split; [reflexivity|]. apply NO; [now apply flush_ok|]. intros s1 s2 (_ & A & _). rewrite (p_var p P) in V. destruct (p_act p P r j Hr A). congruence.
  - destruct (active (gr p r j)) eqn:A; cbn [negb].
    2:{ eexists. split; [reflexivity|]. apply NO; [exact H|]. intros s1 s2 (_ & A' & _). congruence. }
    pose proof (next_spec (gr p) (S r) j) as NS. destruct (next_layer (gr p) n (S r) j) as [i|] eqn:N.
    2:{ eexists. split; [reflexivity|]. apply NO; [now apply flush_ok|]. intros s1 s2 (_ & _ & _ & i & N' & _). congruence. }
    destruct NS as (N1 & N2 & N3 & N4). rewrite N3.
    destruct (p_act p P r j Hr A) as (_ & s1 & x1 & Es1 & _). destruct (p_act p P i j ltac:(lia) N2) as (_ & s2 & x2 & Es2 & _). rewrite Es1, Es2.
    assert (PA : pair_at (gr p) r j s1 s2) by (split; [exact Hr|]; split; [exact A|]; split; [exact Es1|]; exists i; auto).
    destruct H as (H1 & H2 & H3).
    assert (II : incl js (js ++ [j])) by (intros a Ia; apply in_app_iff; auto).
    assert (IJ : In j (js ++ [j])) by (apply in_app_iff; right; now left).
    destruct (Nat.eqb_spec (cnt x) 0) as [Z|Z].
    + rewrite (proj2 (same_pair_eq _ _ _) eq_refl). eexists. split; [reflexivity|]. split; cbn.
      * intros _. exists s1, s2, j. auto.
      * split; [intros K; eapply someb_mono; eauto | intros; lia].
    + destruct (same_pair (cur x) s1 s2) eqn:SP; cbn.
      * eexists. split; [reflexivity|]. split; cbn; [intros _; eapply someb_mono; [exact II | apply H1; lia]|].
        split; [intros K; eapply someb_mono; eauto | intros; lia].
      * eexists. split; [reflexivity|]. apply flush_ok. split; cbn; [intros _; eapply someb_mono; [exact II | apply H1; lia]|].
        split; [intros K; eapply someb_mono; eauto | intros; lia].
Qed.
Lemma columns_ok p r js : pinv p -> r < n -> forall done x, scan_ok (gr p) r done x -> exists x', columns (gr p) n r js x = Ok x' /\
  (0 < maxc x' -> someb (gr p) r (done ++ js) (best x')) /\ (forall j s1 s2, In j (done ++ js) -> pair_at (gr p) r j s1 s2 -> 0 < maxc x').
Proof.
  intros P Hr. induction js as [|j js IH]; intros done x H; cbn [columns].
  - destruct (keep_ok _ _ _ _ H) as ((A & B & C) & K1 & K2 & K3). eexists. split; [reflexivity|]. rewrite app_nil_r. split; [exact B|].
    intros j s1 s2 I Q. destruct (C j s1 s2 I Q) as [Z|Z]; [rewrite K3 in Z; auto | exact Z].
  - destruct (column_ok p r done j x P Hr H) as (x1 & -> & H1). destruct (IH (done ++ [j]) x1 H1) as (x' & E & A). exists x'. split; [exact E|].
    rewrite <- app_assoc in A. exact A.
Qed.
Lemma pairs_ok p r : pinv p -> r < n -> exists x, max_set_of_pairs (gr p) n nd r = Ok x /\
  (0 < maxc x -> exists s1 s2 j, best x = Some (s1, s2) /\ j < nd /\ pair_at (gr p) r j s1 s2) /\
  (forall j s1 s2, j < nd -> pair_at (gr p) r j s1 s2 -> 0 < maxc x).
Proof.
  intros P Hr. destruct (columns_ok p r (seq 0 nd) P Hr [] scan0) as (x & E & A & B).
  - split; cbn; [lia|]. split; [lia | intros ? ? ? []].
  - exists x. split; [exact E|]. split.
    + intros H. destruct (A H) as (s1 & s2 & j & E' & I & Q). apply in_seq in I. exists s1, s2, j. auto with arith. repeat split; auto; lia || apply Q.
    + intros j s1 s2 Hj Q. apply (B j s1 s2); [apply in_seq; lia | exact Q].
Qed.
Definition pick_ok (g : grid) (rs : list nat) (b : pick) : Prop :=
  (0 < pc b -> exists r s1 s2 j, pwhat b = Some (r, (s1, s2)) /\ In r rs /\ j < nd /\ pair_at g r j s1 s2) /\
  (forall r j s1 s2, In r rs -> j < nd -> pair_at g r j s1 s2 -> 0 < pc b).
Lemma rows_ok p rs : pinv p -> (forall r, In r rs -> r < n) -> forall done b, pick_ok (gr p) done b -> exists b', rows (gr p) n nd rs b = Ok b' /\ pick_ok (gr p) (done ++ rs) b'.
Proof.
  intros P. induction rs as [|r rs IH]; intros Hrs done b H; cbn [rows].
  - exists b. rewrite app_nil_r. auto.
  - destruct (pairs_ok p r P (Hrs r (or_introl eq_refl))) as (x & -> & A & B).
    replace (done ++ r :: rs) with ((done ++ [r]) ++ rs) by (now rewrite <- app_assoc). apply IH; [intros; apply Hrs; now right|].
    destruct H as [H1 H2]. destruct (Nat.ltb_spec (pc b) (maxc x)) as [L|L].
    + split; cbn.
      * intros Q. destruct (A Q) as (s1 & s2 & j & -> & Hj & PA). exists r, s1, s2, j. split; [reflexivity|]. split; [apply in_app_iff; right; now left | auto].
      * intros; lia.
    + split.
      * intros Q. destruct (H1 Q) as (r' & s1 & s2 & j & E & I & R). exists r', s1, s2, j. split; [exact E|]. split; [apply in_app_iff; now left | exact R].
      * intros r' j s1 s2 I Hj Q. apply in_app_iff in I. destruct I as [I|[<-|[]]]; [eauto|]. pose proof (B j s1 s2 Hj Q). lia.
Qed.

(** ** One combination *)
Lemma same1 o s : same_pair (match o with Some p => Some (p, 0) | None => None end) s 0 = true <-> o = Some s.
Proof.
  destruct o as [p|]; cbn; [|split; discriminate]. rewrite andb_true_r, Nat.eqb_eq. split; [intros ->; reflexivity | intros E; now injection E].
Qed.
Lemma matches_spec p r s1 s2 j : pinv p -> r < n -> match matches (gr p) n r s1 s2 j with
  | Some i => pair_at (gr p) r j s1 s2 /\ next_layer (gr p) n (S r) j = Some i
  | None => ~ pair_at (gr p) r j s1 s2
  end.
Proof.
  intros P Hr. unfold matches. destruct (active (gr p r j)) eqn:A; [|intros (_ & A' & _); congruence].
  pose proof (next_spec (gr p) (S r) j) as NS. destruct (next_layer (gr p) n (S r) j) as [i|] eqn:N; [|intros (_ & _ & _ & i & N' & _); congruence].
  destruct NS as (N1 & N2 & N3 & N4). rewrite N3, (p_var p P). destruct (p_act p P r j Hr A) as (D & _). rewrite D. cbn [negb andb].
  destruct (same_pair (match sid (gr p r j) with Some q => Some (q, 0) | None => None end) s1 0) eqn:E1; cbn [andb].
  - apply same1 in E1. destruct (same_pair (match sid (gr p i j) with Some q => Some (q, 0) | None => None end) s2 0) eqn:E2.
    + apply same1 in E2. split; [|reflexivity]. split; [exact Hr|]. split; [exact A|]. split; [exact E1|]. exists i. auto.
    + intros (_ & _ & _ & i' & N' & E'). assert (i' = i) by congruence. subst i'. apply same1 in E'. congruence.
  - intros (_ & _ & E' & _). apply same1 in E'. congruence.
Qed.

Lemma uses_snoc t x k s1 s2 : parents x = Some (s1, s2) -> uses (t ++ [x]) k = uses t k + ((if Nat.eqb s1 k then 1 else 0) + (if Nat.eqb s2 k then 1 else 0)).
Proof.
  intros E. unfold uses. rewrite !filter_app, !app_length. cbn [filter]. rewrite E. destruct (Nat.eqb s1 k), (Nat.eqb s2 k); cbn [length]; lia.
Qed.
Lemma uses_core t t' k : (forall i, option_map core (nth_error t i) = option_map core (nth_error t' i)) -> uses t k = uses t' k.
Proof.
  revert t'. induction t as [|x t IH]; intros t' H.
  - destruct t' as [|y t']; [reflexivity|]. discriminate (H 0).
  - destruct t' as [|y t']; [discriminate (H 0)|]. specialize (IH t' (fun i => H (S i))). pose proof (H 0) as H0. cbn in H0. injection H0 as _ _ H0.
    unfold uses in *. cbn [filter]. rewrite H0. destruct (parents y) as [[u v]|]; [|exact IH]. destruct (Nat.eqb u k), (Nat.eqb v k); cbn [length]; lia.
Qed.
Lemma uses_big t k : (forall i x a b, nth_error t i = Some x -> parents x = Some (a, b) -> a < k /\ b < k) -> uses t k = 0.
Proof.
  intros H. assert (F : forall f : stk -> bool, (forall x, In x t -> f x = false) -> length (filter f t) = 0).
  { clear. intros f. induction t as [|x t IH]; intros H; [reflexivity|]. cbn. rewrite H by now left. apply IH. intros; apply H; now right. }
  unfold uses. rewrite !F; [reflexivity| |]; intros x I; apply In_nth_error in I; destruct I as [i E]; destruct (parents x) as [[a b]|] eqn:Ep; auto; destruct (H i x a b E Ep); apply Nat.eqb_neq; lia.
Qed.

Section Combine.
Variables (p : plan) (r s1 s2 j0 size : nat).
Hypothesis P : pinv p.
Hypothesis Hj0 : j0 < nd.
Hypothesis PA : pair_at (gr p) r j0 s1 s2.
Hypothesis Hsize : length (tab p) < size.

Let Hr : r < n := proj1 PA.
Let k := length (tab p).
Let g' := combine_grid (gr p) n r s1 s2 k.
Let t' := bump s2 (bump s1 (tab p)).

Lemma t'_core i : option_map core (nth_error t' i) = option_map core (nth_error (tab p) i).
Proof. unfold t'. now rewrite !core_bump. Qed.
Lemma t'_len : length t' = k.
Proof. unfold t', k. now rewrite !len_bump. Qed.
Lemma t'_old i x : nth_error t' i = Some x -> exists y, nth_error (tab p) i = Some y /\ core y = core x /\ needed x = needed y /\
  count x = count y + ((if Nat.eqb s1 i then 1 else 0) + (if Nat.eqb s2 i then 1 else 0)).
Proof.
  unfold t'. rewrite !nth_bump. rewrite (Nat.eqb_sym i s2), (Nat.eqb_sym i s1).
  destruct (Nat.eqb s2 i); [destruct (Nat.eqb s1 i)|destruct (Nat.eqb s1 i)]; destruct (nth_error (tab p) i) as [y|]; cbn; try discriminate; intros E; injection E as <-; exists y; cbn; repeat split; lia.
Qed.
Lemma t'_new i y : nth_error (tab p) i = Some y -> exists x, nth_error t' i = Some x /\ core x = core y.
Proof.
  intros E. pose proof (t'_core i) as C. rewrite E in C. destruct (nth_error t' i) as [x|]; [|discriminate]. cbn in C. exists x. split; [reflexivity | congruence].
Qed.

(** the new stack *)
Lemma new_is : exists a b, nth_error (tab p) s1 = Some a /\ nth_error (tab p) s2 = Some b /\
  new_stack t' s1 s2 = Ok {| i1 := i1 a; i2 := i2 b; needed := false; count := 0; parents := Some (s1, s2) |}.
Proof.
  destruct (pair_facts p r j0 s1 s2 P PA) as (a & b & Ea & Eb & _). exists a, b. split; [exact Ea|]. split; [exact Eb|].
  unfold new_stack. destruct (t'_new _ _ Ea) as (a' & -> & Ca). destruct (t'_new _ _ Eb) as (b' & -> & Cb). unfold core in *. injection Ca as -> _ _. injection Cb as _ -> _. reflexivity.
Qed.
Lemma combine_is : exists a b, nth_error (tab p) s1 = Some a /\ nth_error (tab p) s2 = Some b /\
  combine size n r s1 s2 p = Ok {| tab := t' ++ [{| i1 := i1 a; i2 := i2 b; needed := false; count := 0; parents := Some (s1, s2) |}]; gr := g' |}.
Proof.
  destruct new_is as (a & b & Ea & Eb & N). exists a, b. split; [exact Ea|]. split; [exact Eb|]. unfold combine. fold t'. rewrite t'_len.
  assert (k <? size = true) as -> by (apply Nat.ltb_lt; exact Hsize). rewrite N. reflexivity.
Qed.

(** the grid *)
Lemma g'_cases j : (~ pair_at (gr p) r j s1 s2 /\ forall i, g' i j = gr p i j) \/
  (pair_at (gr p) r j s1 s2 /\ forall a, nth_error (tab p) s1 = Some a ->
     g' r j = {| active := true; varies := varies (gr p r j); sid := Some k |} /\
     g' (S (i2 a)) j = {| active := false; varies := varies (gr p (S (i2 a)) j); sid := sid (gr p (S (i2 a)) j) |} /\
     forall i, i <> r -> i <> S (i2 a) -> g' i j = gr p i j).
Proof.
  pose proof (matches_spec p r s1 s2 j P Hr) as M. unfold g', combine_grid. destruct (matches (gr p) n r s1 s2 j) as [i'|]; [right | left; auto].
  destruct M as [PJ N]. split; [exact PJ|]. intros a Ea. destruct (pair_facts p r j s1 s2 P PJ) as (a' & b' & Ea' & Eb' & I1 & I1' & _ & _ & _ & A & _ & _ & N' & _).
  assert (a' = a) by congruence. subst a'. assert (i' = S (i2 a)) by congruence. subst i'. destruct (p_rng p P _ _ Ea) as (Ra & _).
  rewrite Nat.eqb_refl, A. split; [reflexivity|]. split.
  - assert (Nat.eqb (S (i2 a)) r = false) as -> by (apply Nat.eqb_neq; lia). now rewrite Nat.eqb_refl.
  - intros i Hi Hi'. apply Nat.eqb_neq in Hi, Hi'. now rewrite Hi, Hi'.
Qed.
Lemma g'_var i j : varies (g' i j) = derivs i j.
Proof.
  rewrite <- (p_var p P). unfold g', combine_grid. destruct (matches (gr p) n r s1 s2 j); [|reflexivity]. destruct (Nat.eqb i r); [reflexivity|]. now destruct (Nat.eqb i n0).
Qed.
Lemma g'_act i j : active (g' i j) = true -> active (gr p i j) = true.
Proof.
  unfold g', combine_grid. destruct (matches (gr p) n r s1 s2 j); [|auto]. destruct (Nat.eqb i r); [auto|]. destruct (Nat.eqb i n0); [discriminate | auto].
Qed.
Lemma g'_stop j b : stop g' j b -> stop (gr p) j b.
Proof. intros [H|[H|H]]; unfold stop; auto. right. right. now apply g'_act. Qed.
Lemma g'_closed j a b : closed g' j a b -> closed (gr p) j a b.
Proof. intros (H1 & H2 & H3 & H4). split; [exact H1|]. split; [now apply g'_act|]. split; [exact H3 | now apply g'_stop]. Qed.

(** a pair either lies inside a closed run or outside *)
Lemma pair_in j a b xa xb : closed g' j a b -> pair_at (gr p) r j s1 s2 -> nth_error (tab p) s1 = Some xa -> nth_error (tab p) s2 = Some xb ->
  (a <= r /\ i2 xb <= b) \/ (r < a /\ i2 xb < a) \/ b < r.
Proof.
  intros C PJ Exa Exb. pose proof (g'_closed _ _ _ C) as (C1 & C2 & C3 & C4). destruct C as (_ & C2' & _ & C4').
  destruct (pair_facts p r j s1 s2 P PJ) as (a' & b' & Ea & Eb & I1 & I1' & L & L' & _ & A1 & A2 & _ & N & D & B & St & _).
  assert (a' = xa) by congruence. subst a'. assert (b' = xb) by congruence. subst b'.
  destruct (p_rng p P _ _ Ea) as (Ra & _). destruct (p_rng p P _ _ Eb) as (Rb & _).
  destruct (g'_cases j) as [[X _]|[_ G]]; [contradiction|]. destruct (G _ Ea) as (G1 & G2 & G3).
  destruct (le_lt_dec a r) as [Q|Q].
  - destruct (le_lt_dec r b) as [Q'|Q']; [|auto]. left. split; [exact Q|]. destruct (le_lt_dec (i2 xb) b); [assumption|]. exfalso.
    destruct C4' as [K|[K|K]]; [lia | rewrite D in K; [discriminate | lia] |].
    destruct (Nat.eq_dec (S b) (S (i2 xa))) as [Y|Y]; [rewrite Y, G2 in K; discriminate K|]. rewrite G3 in K by lia. rewrite B in K; [discriminate | lia | exact Y].
  - destruct (le_lt_dec a (i2 xb)) as [Q'|Q']; [|auto]. exfalso.
    destruct (Nat.eq_dec a (S (i2 xa))) as [Y|Y]; [rewrite Y, G2 in C2'; discriminate C2'|]. rewrite B in C2; [discriminate | lia | exact Y].
Qed.

(** if one of two columns closed on the same layers has the pair inside, so has the other *)
Lemma pair_both j j' a b xa xb : closed (gr p) j a b -> closed (gr p) j' a b -> pair_at (gr p) r j s1 s2 -> nth_error (tab p) s1 = Some xa -> nth_error (tab p) s2 = Some xb ->
  a <= r -> i2 xb <= b -> pair_at (gr p) r j' s1 s2.
Proof.
  intros C C' PJ Exa Exb Q Q'. destruct (pair_facts p r j s1 s2 P PJ) as (a' & b' & Ea & Eb & I1 & I1' & L & L' & _ & A1 & A2 & E2 & N & D & B & St & _).
  assert (a' = xa) by congruence. subst a'. assert (b' = xb) by congruence. subst b'. destruct (p_rng p P _ _ Ea) as (Ra & _).
  destruct (p_same p P j j' a b C C' r ltac:(lia)) as [X1 X2]. rewrite A1 in X1. specialize (X2 A1).
  destruct (p_same p P j j' a b C C' (S (i2 xa)) ltac:(lia)) as [Y1 Y2]. rewrite A2 in Y1. specialize (Y2 A2).
  destruct PJ as (_ & _ & E1 & _). split; [exact Hr|]. split; [congruence|]. split; [congruence|]. exists (S (i2 xa)). split; [|congruence].
  rewrite (next_of_act p r j' s1 xa P Hr ltac:(congruence) ltac:(congruence) Ea), <- Y1. assert (S (i2 xa) <? n = true) as -> by (apply Nat.ltb_lt; lia). reflexivity.
Qed.

Lemma no_same x xa xb i : nth_error (tab p) i = Some x -> nth_error (tab p) s1 = Some xa -> nth_error (tab p) s2 = Some xb -> i1 x = i1 xa -> i2 x = i2 xb -> False.
Proof.
  intros E Exa Exb H1 H2. destruct (pair_facts p r j0 s1 s2 P PA) as (a' & b' & Ea & Eb & I1 & I1' & L & L' & _ & A1 & A2 & E2 & N & D & B & St & C & _).
  assert (a' = xa) by congruence. subst a'. assert (b' = xb) by congruence. subst b'.
  assert (K : sid (gr p (i1 x) j0) = Some i) by (apply (p_tab p P i x j0 E); rewrite H1, I1, H2; exact C).
  rewrite H1, I1 in K. pose proof PA as PA2. destruct PA2 as (_ & _ & E1 & _). assert (i = s1) as EI by congruence. rewrite EI in E. assert (x = xa) as EX by congruence. rewrite EX in H2. lia.
Qed.

Lemma combine_pinv : exists p', combine size n r s1 s2 p = Ok p' /\ pinv p' /\ length (tab p') = S (length (tab p)) /\
  (forall i j, active (gr p' i j) = true -> active (gr p i j) = true) /\
  exists i, i < n /\ active (gr p i j0) = true /\ active (gr p' i j0) = false.
Proof.
  destruct combine_is as (xa & xb & Ea & Eb & E). eexists. split; [exact E|].
  destruct (pair_facts p r j0 s1 s2 P PA) as (a' & b' & Ea' & Eb' & I1 & I1' & L & L' & NE & A1 & A2 & E2 & N & D & B & St & C & _).
  assert (a' = xa) by congruence. subst a'. assert (b' = xb) by congruence. subst b'. clear Ea' Eb'.
  destruct (p_rng p P _ _ Ea) as (Ra & _). destruct (p_rng p P _ _ Eb) as (Rb & _).
  set (xn := {| i1 := i1 xa; i2 := i2 xb; needed := false; count := 0; parents := Some (s1, s2) |}) in *.
  assert (LT : length t' = k) by apply t'_len.
  assert (S1 : s1 < k) by (apply nth_error_Some; congruence). assert (S2 : s2 < k) by (apply nth_error_Some; congruence).
  assert (NX : forall i x, nth_error (t' ++ [xn]) i = Some x -> (i < k /\ nth_error t' i = Some x) \/ (i = k /\ x = xn)).
  { intros i x H. destruct (le_lt_dec k i) as [Q|Q].
    - rewrite nth_error_app2 in H by lia. rewrite LT in H. destruct (i - k) as [|u] eqn:EQ; cbn in H; [injection H as <-; right; split; [lia | reflexivity] | destruct u; discriminate].
    - rewrite nth_error_app1 in H by lia. auto. }
  assert (NO : forall i y, nth_error (tab p) i = Some y -> exists x, nth_error (t' ++ [xn]) i = Some x /\ core x = core y).
  { intros i y H. destruct (t'_new i y H) as (x & X1 & X2). exists x. split; [|exact X2]. rewrite nth_error_app1; [exact X1|]. rewrite LT. apply nth_error_Some. congruence. }
  assert (NK : nth_error (t' ++ [xn]) k = Some xn) by (rewrite nth_error_app2 by lia; rewrite LT, Nat.sub_diag; reflexivity).
  assert (COL : forall j, pair_at (gr p) r j s1 s2 -> g' r j = {| active := true; varies := varies (gr p r j); sid := Some k |} /\
     g' (S (i2 xa)) j = {| active := false; varies := varies (gr p (S (i2 xa)) j); sid := sid (gr p (S (i2 xa)) j) |} /\
     forall i, i <> r -> i <> S (i2 xa) -> g' i j = gr p i j).
  { intros j H. destruct (g'_cases j) as [[X _]|[_ G]]; [contradiction | exact (G _ Ea)]. }
  assert (COL' : forall j, ~ pair_at (gr p) r j s1 s2 -> forall i, g' i j = gr p i j).
  { intros j H. destruct (g'_cases j) as [[_ G]|[X _]]; [exact G | contradiction]. }
  assert (DEC : forall j, pair_at (gr p) r j s1 s2 \/ ~ pair_at (gr p) r j s1 s2).
  { intros j. destruct (g'_cases j) as [[X _]|[X _]]; auto. }
  assert (ALS : forall x y, core x = core y -> i1 x = i1 y /\ i2 x = i2 y /\ parents x = parents y) by (unfold core; intros x y H; injection H; auto).
  split; [split; cbn [tab gr]|split; [cbn; rewrite app_length, LT; cbn; unfold k; lia | split; [exact g'_act|]]].
  - rewrite app_length, LT. pose proof (p_len p P). fold k in H. lia.
  - intros i Hi. assert (i < k) by (pose proof (p_len p P) as X; fold k in X; lia). rewrite nth_error_app1 by lia. rewrite t'_core. now apply (p_first p P).
  - intros i x H Hi. apply NX in H. destruct H as [[Hk H]|[-> ->]].
    + destruct (t'_old _ _ H) as (y & Ey & Cy & _). destruct (ALS _ _ Cy) as (Y1 & Y2 & Y3).
      destruct (p_rest p P i y Ey Hi) as (a & b & ya & yb & H1 & H2 & H3 & H4 & H5 & H6 & H7 & H8).
      destruct (NO _ _ H4) as (za & Z1 & Z2). destruct (NO _ _ H5) as (zb & Z3 & Z4). destruct (ALS _ _ Z2) as (U1 & U2 & _). destruct (ALS _ _ Z4) as (V1 & V2 & _).
      exists a, b, za, zb. split; [congruence|]. split; [exact H2|]. split; [exact H3|]. split; [exact Z1|]. split; [exact Z3|]. split; [congruence|]. split; [congruence|]. congruence.
    + destruct (NO _ _ Ea) as (za & Z1 & Z2). destruct (NO _ _ Eb) as (zb & Z3 & Z4). destruct (ALS _ _ Z2) as (U1 & U2 & _). destruct (ALS _ _ Z4) as (V1 & V2 & _).
      exists s1, s2, za, zb. cbn. split; [reflexivity|]. split; [exact S1|]. split; [exact S2|]. split; [exact Z1|]. split; [exact Z3|]. split; [congruence|]. split; [congruence|]. congruence.
  - intros i x H. apply NX in H. destruct H as [[Hk H]|[-> ->]]; [|cbn; split; [lia | reflexivity]].
    destruct (t'_old _ _ H) as (y & Ey & Cy & Ny & _). destruct (ALS _ _ Cy) as (Y1 & Y2 & _). destruct (p_rng p P _ _ Ey) as [Y3 Y4]. split; [lia | congruence].
  - intros i x H Hi. apply NX in H. destruct H as [[Hk H]|[-> ->]].
    + destruct (t'_old _ _ H) as (y & Ey & Cy & _). destruct (ALS _ _ Cy) as (Y1 & Y2 & _). destruct (p_run p P _ _ Ey Hi) as (j & Hj & Dj). exists j. split; [exact Hj|]. rewrite <- Y1, <- Y2. exact Dj.
    + exists j0. split; [exact Hj0|]. cbn. rewrite I1. exact D.
  - exact g'_var.
  - intros i j Hi H. destruct (p_act p P i j Hi (g'_act _ _ H)) as (Di & s & x & Es & Ex & Ix & Bx & Sx). split; [exact Di|].
    destruct (DEC j) as [PJ|PJ].
    + destruct (COL j PJ) as (G1 & G2 & G3). destruct (Nat.eq_dec i r) as [->|NR].
      * exists k, xn. rewrite G1. split; [reflexivity|]. split; [exact NK|]. split; [exact I1|]. cbn [i2 xn].
        destruct (pair_facts p r j s1 s2 P PJ) as (a' & b' & Ea' & Eb' & _ & _ & _ & _ & _ & _ & _ & _ & _ & D' & B' & St' & _).
        assert (a' = xa) by congruence. subst a'. assert (b' = xb) by congruence. subst b'. split.
        -- intros y Hy. split; [|apply D'; lia]. destruct (Nat.eq_dec y (S (i2 xa))) as [->|]; [now rewrite G2|]. rewrite G3 by lia. apply B'; assumption.
        -- destruct St' as [K|[K|K]]; unfold stop; auto. right. right. rewrite G3 by lia. exact K.
      * assert (i <> S (i2 xa)) by (intros ->; rewrite G2 in H; discriminate H). rewrite G3 by assumption.
        destruct (NO _ _ Ex) as (z & Z1 & Z2). destruct (ALS _ _ Z2) as (U1 & U2 & _). exists s, z. split; [exact Es|]. split; [exact Z1|]. split; [congruence|]. rewrite U2.
        split.
        -- intros y Hy. destruct (Bx y Hy) as [B1 B2]. split; [|exact B2]. destruct (active (g' y j)) eqn:Q; [|reflexivity]. apply g'_act in Q. congruence.
        -- destruct Sx as [K|[K|K]]; unfold stop; auto. destruct (Nat.eq_dec (S (i2 x)) r) as [Y|Y]; [rewrite Y, G1; auto|].
           destruct (Nat.eq_dec (S (i2 x)) (S (i2 xa))) as [Y'|Y']; [|rewrite G3 by assumption; auto]. exfalso.
           (* the stack before S (i2 xa) starts at r *)
           assert (W : i < r \/ r < i) by lia. destruct W as [W|W]; [destruct (Bx r ltac:(lia)) as [B1 _]; destruct PJ as (_ & PJ & _); congruence|].
           destruct (pair_facts p r j s1 s2 P PJ) as (a' & b' & Ea' & Eb' & _ & _ & _ & _ & _ & _ & _ & _ & _ & D' & B' & St' & _).
           assert (a' = xa) by congruence. subst a'. assert (b' = xb) by congruence. subst b'. pose proof (p_rng p P _ _ Ex) as [X3 _].
           pose proof (g'_act _ _ H) as Q. rewrite (B' i) in Q; [discriminate|lia|assumption].
    + rewrite (COL' j PJ). destruct (NO _ _ Ex) as (z & Z1 & Z2). destruct (ALS _ _ Z2) as (U1 & U2 & _). exists s, z. split; [exact Es|]. split; [exact Z1|]. split; [congruence|]. rewrite U2.
      split; [intros y Hy; rewrite (COL' j PJ); now apply Bx|]. destruct Sx as [K|[K|K]]; unfold stop; auto. right. right. now rewrite (COL' j PJ).
  - intros i j Hi Di Hd. pose proof (p_head p P i j Hi Di Hd) as Q. destruct (DEC j) as [PJ|PJ]; [|now rewrite (COL' j PJ)].
    destruct (COL j PJ) as (G1 & G2 & G3). destruct (Nat.eq_dec i r) as [->|NR]; [now rewrite G1|]. destruct (Nat.eq_dec i (S (i2 xa))) as [->|NA]; [|now rewrite G3].
    exfalso. destruct (pair_facts p r j s1 s2 P PJ) as (a' & b' & Ea' & Eb' & _ & _ & _ & _ & _ & _ & _ & _ & _ & D' & _). assert (a' = xa) by congruence. subst a'. assert (b' = xb) by congruence. subst b'.
    destruct Hd as [Hd|Hd]; [lia|]. replace (S (i2 xa) - 1) with (i2 xa) in Hd by lia. rewrite D' in Hd; [discriminate | lia].
  - (* the same segmentation *)
    intros j j' a b Cj Cj' q Hq. pose proof (g'_closed _ _ _ Cj) as Oj. pose proof (g'_closed _ _ _ Cj') as Oj'.
    destruct (p_same p P j j' a b Oj Oj' q Hq) as [X1 X2].
    assert (OUT : forall j1 j2, closed g' j1 a b -> closed g' j2 a b -> closed (gr p) j1 a b -> closed (gr p) j2 a b -> pair_at (gr p) r j1 s1 s2 ->
              (a <= r /\ i2 xb <= b /\ pair_at (gr p) r j2 s1 s2) \/ (g' q j1 = gr p q j1)).
    { intros j1 j2 c1 c2 o1 o2 P1. destruct (pair_in j1 a b xa xb c1 P1 Ea Eb) as [[Q1 Q2]|[[Q1 Q2]|Q]].
      - left. split; [exact Q1|]. split; [exact Q2|]. exact (pair_both j1 j2 a b xa xb o1 o2 P1 Ea Eb Q1 Q2).
      - right. destruct (COL j1 P1) as (_ & _ & G3). apply G3; lia.
      - right. destruct (COL j1 P1) as (_ & _ & G3). apply G3; lia. }
    destruct (DEC j) as [PJ|PJ]; destruct (DEC j') as [PJ'|PJ'].
    + destruct (COL j PJ) as (G1 & G2 & G3). destruct (COL j' PJ') as (G1' & G2' & G3').
      destruct (Nat.eq_dec q r) as [->|NR]; [rewrite G1, G1'; cbn; auto|]. destruct (Nat.eq_dec q (S (i2 xa))) as [->|NA]; [rewrite G2, G2'; cbn; split; [reflexivity | discriminate]|].
      rewrite G3, G3' by assumption. auto.
    + destruct (OUT j j' Cj Cj' Oj Oj' PJ) as [(_ & _ & Q)|Q]; [contradiction|]. rewrite Q, (COL' j' PJ'). auto.
    + destruct (OUT j' j Cj' Cj Oj' Oj PJ') as [(_ & _ & Q)|Q]; [contradiction|]. rewrite Q, (COL' j PJ). auto.
    + rewrite (COL' j PJ), (COL' j' PJ'). auto.
  - (* the stack of a closed run *)
    intros i x j H Cj. apply NX in H. pose proof (g'_closed _ _ _ Cj) as Oj. destruct H as [[Hk H]|[-> ->]].
    + destruct (t'_old _ _ H) as (y & Ey & Cy & _). destruct (ALS _ _ Cy) as (Y1 & Y2 & _).
      assert (Q : sid (gr p (i1 x) j) = Some i) by (rewrite <- Y1; apply (p_tab p P i y j Ey); rewrite Y1, Y2; exact Oj).
      destruct (DEC j) as [PJ|PJ]; [|now rewrite (COL' j PJ)]. destruct (COL j PJ) as (G1 & G2 & G3).
      destruct (pair_in j (i1 x) (i2 x) xa xb Cj PJ Ea Eb) as [[Q1 Q2]|[[Q1 Q2]|Q1]]; [|rewrite G3 by lia; exact Q|pose proof (p_rng p P _ _ Ey) as [X3 _]; rewrite G3 by lia; exact Q].
      assert (NR : i1 x <> r).
      { intros ER. rewrite ER in Q. destruct PJ as (_ & _ & E1 & _). assert (i = s1) by congruence. subst i. assert (y = xa) by congruence. subst y. lia. }
      assert (NA : i1 x <> S (i2 xa)) by (intros EA; lia). rewrite G3 by assumption. exact Q.
    + cbn [i1 xn] in *. cbn [i2] in *. rewrite I1 in *.
      assert (PJ : pair_at (gr p) r j s1 s2) by (exact (pair_both j0 j r (i2 xb) xa xb C Oj PA Ea Eb (le_n r) (le_n _))).
      destruct (COL j PJ) as (G1 & _). now rewrite G1.
  - intros i i' x x' H H' H1 H2. apply NX in H, H'. destruct H as [[Hk H]|[-> ->]]; destruct H' as [[Hk' H']|[-> ->]]; [| | |reflexivity].
    + destruct (t'_old _ _ H) as (y & Ey & Cy & _). destruct (ALS _ _ Cy) as (Y1 & Y2 & _). destruct (t'_old _ _ H') as (y' & Ey' & Cy' & _). destruct (ALS _ _ Cy') as (Y1' & Y2' & _).
      apply (p_nodup p P i i' y y' Ey Ey'); congruence.
    + exfalso. destruct (t'_old _ _ H) as (y & Ey & Cy & _). destruct (ALS _ _ Cy) as (Y1 & Y2 & _). cbn in H1, H2. apply (no_same y xa xb i Ey Ea Eb); congruence.
    + exfalso. destruct (t'_old _ _ H') as (y & Ey & Cy & _). destruct (ALS _ _ Cy) as (Y1 & Y2 & _). cbn in H1, H2. apply (no_same y xa xb i' Ey Ea Eb); congruence.
  - intros i x H. rewrite (uses_snoc t' xn i s1 s2 eq_refl), (uses_core t' (tab p) i t'_core). apply NX in H. destruct H as [[Hk H]|[-> ->]].
    + destruct (t'_old _ _ H) as (y & Ey & _ & _ & Cnt). rewrite Cnt, (p_count p P i y Ey). reflexivity.
    + rewrite (proj2 (Nat.eqb_neq s1 k)), (proj2 (Nat.eqb_neq s2 k)) by lia. cbn [count xn]. rewrite uses_big; [reflexivity|].
      intros i x u v Ei Pi. assert (Hi : i < k) by (apply nth_error_Some; congruence). destruct (le_lt_dec n i) as [Q|Q].
      * destruct (p_rest p P i x Ei Q) as (u' & v' & ? & ? & Pi' & Hu & Hv & _). assert (u' = u /\ v' = v) as [-> ->] by (split; congruence). lia.
      * pose proof (p_first p P i Q) as F. rewrite Ei in F. cbn in F. unfold core in F. congruence.
  - exists (S (i2 xa)). split; [lia|]. split; [exact A2|]. cbn [gr]. destruct (COL j0 PA) as (_ & G2 & _). now rewrite G2.
Qed.

Definition live (q : plan) : Prop := forall i x, n <= i -> nth_error (tab q) i = Some x -> 0 < count x \/ exists l j, l < n /\ j < nd /\ active (gr q l j) = true /\ sid (gr q l j) = Some i.
Lemma combine_live q : live p -> combine size n r s1 s2 p = Ok q -> live q.
Proof.
  intros H E i x Hi Ei. destruct combine_is as (xa & xb & Ea & Eb & E'). rewrite E' in E. injection E as <-. cbn [tab gr] in *.
  destruct (le_lt_dec k i) as [Q|Q].
  - right. assert (i = k) as -> by (assert (i < length (t' ++ [{| i1 := i1 xa; i2 := i2 xb; needed := false; count := 0; parents := Some (s1, s2) |}])) as X by (apply nth_error_Some; congruence);
      rewrite app_length, t'_len in X; cbn in X; lia).
    exists r, j0. split; [exact Hr|]. split; [exact Hj0|]. destruct (g'_cases j0) as [[X _]|[_ G]]; [contradiction|]. destruct (G _ Ea) as (-> & _). auto.
  - rewrite nth_error_app1 in Ei by (rewrite t'_len; exact Q). destruct (t'_old _ _ Ei) as (y & Ey & _ & _ & C). rewrite C.
    destruct (H i y Hi Ey) as [K|(l & j & Hl & Hj & A & Sd)]; [left; lia|].
    destruct (Nat.eqb_spec s1 i) as [|N1]; [left; lia|]. destruct (Nat.eqb_spec s2 i) as [|N2]; [left; lia|]. right. exists l, j. split; [exact Hl|]. split; [exact Hj|].
    destruct (g'_cases j) as [[_ G]|[PJ G]]; [rewrite G; auto|]. destruct (G _ Ea) as (G1 & G2 & G3).
    destruct (pair_facts p r j s1 s2 P PJ) as (a' & b' & Ea' & Eb' & _ & _ & _ & _ & _ & _ & _ & E2 & _). assert (a' = xa) by congruence. subst a'.
    destruct PJ as (_ & _ & E1 & _). rewrite G3; [auto| |]; intros ->; congruence.
Qed.
End Combine.

(** ** The size of the table *)
Definition all_pairs (m : nat) : list (nat * nat) := flat_map (fun b => map (fun a => (a, b)) (seq 0 (S b))) (seq 0 m).
Lemma all_pairs_len m : 2 * length (all_pairs m) = m * (m + 1).
Proof.
  unfold all_pairs. induction m as [|m IH]; [reflexivity|]. rewrite seq_S, flat_map_app, app_length. cbn [flat_map plus]. rewrite app_nil_r, map_length, seq_length. lia.
Qed.
Lemma tab_bound p : pinv p -> 2 * length (tab p) <= n * (n + 1).
Proof.
  intros P. rewrite <- all_pairs_len. apply Nat.mul_le_mono_l. rewrite <- (map_length (fun x => (i1 x, i2 x)) (tab p)). apply NoDup_incl_length.
  - apply NoDup_nth_error. intros i j Hi E. rewrite map_length in Hi. rewrite !nth_error_map in E.
    destruct (nth_error (tab p) i) as [x|] eqn:Ex; [|apply nth_error_None in Ex; lia]. destruct (nth_error (tab p) j) as [y|] eqn:Ey; [|discriminate]. cbn in E. injection E as E1 E2.
    exact (p_nodup p P i j x y Ex Ey E1 E2).
  - intros q I. apply in_map_iff in I. destruct I as (x & <- & I). apply In_nth_error in I. destruct I as [i Ei]. destruct (p_rng p P _ _ Ei) as [R _].
    unfold all_pairs. apply in_flat_map. exists (i2 x). split; [apply in_seq; lia|]. apply in_map_iff. exists (i1 x). split; [reflexivity | apply in_seq; lia].
Qed.

(** ** All the rounds *)
Definition cells : list (nat * nat) := list_prod (seq 0 n) (seq 0 nd).
Definition left_ (g : grid) : nat := length (filter (fun c => active (g (fst c) (snd c))) cells).
Lemma filter_lt {A} (f h : A -> bool) l x : (forall y, f y = true -> h y = true) -> In x l -> h x = true -> f x = false -> length (filter f l) < length (filter h l).
Proof.
  intros M. assert (LE : forall l, length (filter f l) <= length (filter h l)).
  { clear - M. induction l as [|a l IH]; [reflexivity|]. cbn. destruct (f a) eqn:E; [rewrite (M a E); cbn; lia|]. destruct (h a); cbn; lia. }
  induction l as [|a l IH]; intros I H F; [destruct I|]. destruct I as [->|I].
  - cbn. rewrite H, F. cbn. specialize (LE l). lia.
  - specialize (IH I H F). cbn. destruct (f a) eqn:E; [rewrite (M a E); cbn; lia|]. destruct (h a); cbn; lia.
Qed.
Lemma in_cells i j : In (i, j) cells <-> i < n /\ j < nd.
Proof. unfold cells. rewrite in_prod_iff, !in_seq. lia. Qed.
Definition done (p : plan) : Prop := forall r j s1 s2, j < nd -> ~ pair_at (gr p) r j s1 s2.
Lemma rounds_ok : forall fuel p, pinv p -> live p -> left_ (gr p) < fuel -> exists p', rounds (n * n) n nd fuel p = Some (Ok p') /\ pinv p' /\ live p' /\ done p'.
Proof.
  induction fuel as [|fuel IH]; intros p P LV F; [lia|]. cbn [rounds].
  destruct (rows_ok p (seq 0 (n - 1)) P ltac:(intros r I; apply in_seq in I; lia) [] {| pc := 0; pwhat := None |}) as (b & -> & B1 & B2).
  { split; cbn; [lia | intros ? ? ? ? []]. }
  destruct (Nat.eqb_spec (pc b) 0) as [Z|Z].
  - exists p. split; [reflexivity|]. split; [exact P|]. split; [exact LV|]. intros r j s1 s2 Hj PA.
    assert (0 < pc b); [|lia]. apply (B2 r j s1 s2); [|exact Hj|exact PA]. cbn. apply in_seq.
    destruct (pair_facts p r j s1 s2 P PA) as (xa & xb & Ea & _ & I1 & _ & L & L' & _). destruct (p_rng p P _ _ Ea). lia.
  - destruct (B1 ltac:(lia)) as (r & s1 & s2 & j & -> & _ & Hj & PA).
    destruct (combine_pinv p r s1 s2 j (S (length (tab p))) P Hj PA ltac:(lia)) as (q0 & _ & Q0 & L0 & _). pose proof (tab_bound q0 Q0) as TB. rewrite L0 in TB.
    assert (SZ : length (tab p) < n * n) by nia.
    destruct (combine_pinv p r s1 s2 j (n * n) P Hj PA SZ) as (q & E & Q & L & M & i & Hi & A1 & A2). rewrite E. apply IH; [exact Q| |].
    + exact (combine_live p r s1 s2 j (n * n) P Hj PA SZ q LV E).
    + unfold left_ in *. enough (length (filter (fun c => active (gr q (fst c) (snd c))) cells) < length (filter (fun c => active (gr p (fst c) (snd c))) cells)) by lia.
      apply (filter_lt _ _ _ (i, j)); [intros [u v]; apply M | now apply in_cells | exact A1 | exact A2].
Qed.
Lemma left_max g : left_ g <= n * nd.
Proof.
  unfold left_. assert (LC : length cells = n * nd) by (unfold cells; rewrite prod_length, !seq_length; reflexivity). rewrite <- LC. clear LC.
  generalize (fun c : nat * nat => active (g (fst c) (snd c))). intros f. induction cells as [|a l IH]; [reflexivity|]. cbn. destruct (f a); cbn; lia.
Qed.

(** ** Marking *)
Lemma need_all_ok g cs : forall t, (forall i j, In (i, j) cs -> active (g i j) = true -> exists s, sid (g i j) = Some s) -> exists t', need_all g cs t = Ok t' /\ length t' = length t /\
  forall k x, nth_error t k = Some x -> exists x', nth_error t' k = Some x' /\ core x' = core x /\ count x' = count x /\
    (needed x' = true <-> needed x = true \/ exists i j, In (i, j) cs /\ active (g i j) = true /\ sid (g i j) = Some k).
Proof.
  induction cs as [|[i j] cs IH]; intros t H; cbn [need_all].
  - exists t. split; [reflexivity|]. split; [reflexivity|]. intros k x E. exists x. repeat split; auto. intros [Q|(? & ? & [] & _)]; exact Q.
  - assert (H' : forall i j, In (i, j) cs -> active (g i j) = true -> exists s, sid (g i j) = Some s) by (intros; apply H; [now right | assumption]).
    destruct (active (g i j)) eqn:A.
    + destruct (H i j (or_introl eq_refl) A) as [s Es]. rewrite Es. destruct (IH (need s t) H') as (t' & -> & L & R). exists t'. split; [reflexivity|].
      split; [now rewrite L, len_need|]. intros k x E. pose proof (nth_need s t k) as N. rewrite E in N.
      destruct (Nat.eqb_spec k s) as [->|NE]; cbn in N.
      * destruct (R s _ N) as (x' & E' & C' & Ct & Nd). exists x'. split; [exact E'|]. split; [exact C'|]. split; [exact Ct|]. rewrite Nd. cbn. split; [|auto].
        intros _. right. exists i, j. split; [now left | auto].
      * destruct (R k _ N) as (x' & E' & C' & Ct & Nd). exists x'. split; [exact E'|]. split; [exact C'|]. split; [exact Ct|]. rewrite Nd. split.
        -- intros [Q|(u & v & I & Q)]; [auto|]. right. exists u, v. split; [now right | exact Q].
        -- intros [Q|(u & v & [I|I] & Q)]; [auto| |right; exists u, v; auto]. injection I as <- <-. destruct Q as [_ Q]. congruence.
    + destruct (IH t H') as (t' & -> & L & R). exists t'. split; [reflexivity|]. split; [exact L|]. intros k x E. destruct (R k x E) as (x' & E' & C' & Ct & Nd). exists x'.
      split; [exact E'|]. split; [exact C'|]. split; [exact Ct|]. rewrite Nd. split.
      * intros [Q|(u & v & I & Q)]; [auto|]. right. exists u, v. split; [now right | exact Q].
      * intros [Q|(u & v & [I|I] & Q)]; [auto| |right; exists u, v; auto]. injection I as <- <-. destruct Q as [Q _]. congruence.
Qed.

(** ** The runs of a column *)
Definition run (j a b : nat) : Prop := a <= b < n /\ (forall i, a <= i <= b -> derivs i j = false) /\ (a = 0 \/ derivs (a - 1) j = true) /\ (S b = n \/ derivs (S b) j = true).
Lemma down p i j : pinv p -> i < n -> derivs i j = false -> exists a, a <= i /\ active (gr p a j) = true /\ forall y, a <= y <= i -> derivs y j = false.
Proof.
  intros P. induction i as [|i IH]; intros Hi D.
  - exists 0. split; [lia|]. split; [apply (p_head p P); auto|]. intros y Hy. replace y with 0 by lia. exact D.
  - destruct (active (gr p (S i) j)) eqn:A; [exists (S i); split; [lia|]; split; [exact A|]; intros y Hy; replace y with (S i) by lia; exact D|].
    destruct (derivs i j) eqn:D'; [rewrite (p_head p P (S i) j Hi D) in A; [discriminate | right; cbn; rewrite Nat.sub_0_r; exact D']|].
    destruct (IH ltac:(lia) eq_refl) as (a & L & A' & R). exists a. split; [lia|]. split; [exact A'|]. intros y Hy. destruct (Nat.eq_dec y (S i)) as [->|]; [exact D | apply R; lia].
Qed.
(** when nothing can be combined an active cell is at the top of a run and its stack is the run *)
Lemma done_run p i j : pinv p -> done p -> j < nd -> i < n -> active (gr p i j) = true -> exists s x, sid (gr p i j) = Some s /\ nth_error (tab p) s = Some x /\ i1 x = i /\ run j i (i2 x).
Proof.
  intros P Dn Hj Hi A. destruct (p_act p P i j Hi A) as (D & s & x & Es & Ex & I1 & B & St). exists s, x. split; [exact Es|]. split; [exact Ex|]. split; [exact I1|].
  destruct (p_rng p P _ _ Ex) as [R _].
  assert (DD : forall y, i <= y <= i2 x -> derivs y j = false) by (intros y Hy; destruct (Nat.eq_dec y i) as [->|]; [exact D | apply B; lia]).
  split; [lia|]. split; [exact DD|]. split.
  - destruct i as [|i]; [auto|]. right. cbn. rewrite Nat.sub_0_r. destruct (derivs i j) eqn:D'; [reflexivity|]. exfalso.
    destruct (down p i j P ltac:(lia) D') as (a & L & Aa & Ra). destruct (p_act p P a j ltac:(lia) Aa) as (_ & s' & x' & Es' & Ex' & I1' & B' & St').
    assert (Q : i2 x' < S i) by (destruct (le_lt_dec (S i) (i2 x')); [destruct (B' (S i) ltac:(lia)); congruence | assumption]).
    (* the last active cell above i *)
    assert (W : exists a, a <= i /\ active (gr p a j) = true /\ forall y, a < y <= i -> active (gr p y j) = false /\ derivs y j = false).
    { clear - P L Aa Ra. revert a L Aa Ra. induction i as [|i IH]; intros a L Aa Ra.
      - exists 0. split; [lia|]. split; [replace 0 with a by lia; exact Aa | intros; lia].
      - destruct (active (gr p (S i) j)) eqn:A; [exists (S i); split; [lia|]; split; [exact A | intros; lia]|].
        assert (a <> S i) by (intros ->; congruence). destruct (IH a ltac:(lia) Aa) as (c & Lc & Ac & Rc); [intros; apply Ra; lia|]. exists c. split; [lia|]. split; [exact Ac|].
        intros y Hy. destruct (Nat.eq_dec y (S i)) as [->|]; [split; [exact A | apply Ra; lia] | apply Rc; lia]. }
    destruct W as (c & Lc & Ac & Rc). destruct (p_act p P c j ltac:(lia) Ac) as (Dc & sc & xc & Esc & Exc & I1c & Bc & Stc).
    apply (Dn c j sc s Hj). split; [lia|]. split; [exact Ac|]. split; [exact Esc|]. exists (S i). split; [|exact Es].
    pose proof (next_spec (gr p) (S c) j) as N. destruct (next_layer (gr p) n (S c) j) as [z|].
    + destruct N as (N1 & N2 & N3 & N4). f_equal. destruct (Nat.lt_trichotomy z (S i)) as [Y|[Y|Y]]; [|exact Y|].
      * destruct (Rc z ltac:(lia)). congruence.
      * destruct (N4 (S i) ltac:(lia)). congruence.
    + destruct (N (S i) ltac:(lia) A) as (y & Hy & Vy); [now rewrite (p_var p P)|]. rewrite (p_var p P) in Vy. destruct (Rc y ltac:(lia)). congruence.
  - destruct St as [K|[K|K]]; auto. destruct (Nat.eq_dec (S (i2 x)) n) as [|NE]; [auto|]. exfalso. destruct (p_act p P (S (i2 x)) j ltac:(lia) K) as (_ & s2 & x2 & Es2 & _).
    apply (Dn i j s s2 Hj). split; [exact Hi|]. split; [exact A|]. split; [exact Es|]. exists (S (i2 x)). split; [|exact Es2].
    rewrite (next_of_act p i j s x P Hi Es A Ex), K. assert (S (i2 x) <? n = true) as -> by (apply Nat.ltb_lt; lia). reflexivity.
Qed.
Lemma run_uniq j a b b' : run j a b -> run j a b' -> b = b'.
Proof.
  intros (R1 & R2 & _ & R4) (Q1 & Q2 & _ & Q4). destruct (Nat.lt_trichotomy b b') as [L|[L|L]]; [|exact L|]; exfalso.
  - destruct R4 as [R4|R4]; [lia|]. rewrite Q2 in R4; [discriminate | lia].
  - destruct Q4 as [Q4|Q4]; [lia|]. rewrite R2 in Q4; [discriminate | lia].
Qed.

(** ** The whole plan *)
Record plan_ok (t : list stk) : Prop := {
  k_first : forall k, k < n -> exists x, nth_error t k = Some x /\ i1 x = k /\ i2 x = k /\ parents x = None;
  k_rest : forall k x, nth_error t k = Some x -> n <= k -> exists a b xa xb, parents x = Some (a, b) /\ a < k /\ b < k /\
    nth_error t a = Some xa /\ nth_error t b = Some xb /\ i1 x = i1 xa /\ i2 x = i2 xb /\ i1 xb = S (i2 xa);
  k_rng : forall k x, nth_error t k = Some x -> i1 x <= i2 x < n;
  k_size : 2 * length t <= n * (n + 1);
  k_nodup : forall k k' x x', nth_error t k = Some x -> nth_error t k' = Some x' -> i1 x = i1 x' -> i2 x = i2 x' -> k = k';
  k_need : forall k x, nth_error t k = Some x -> (needed x = true <-> exists j, j < nd /\ run j (i1 x) (i2 x));
  k_runs : forall j a b, j < nd -> run j a b -> exists k x, nth_error t k = Some x /\ i1 x = a /\ i2 x = b;
  k_inside : forall k x, nth_error t k = Some x -> n <= k -> exists j, j < nd /\ forall r, i1 x <= r <= i2 x -> derivs r j = false;
  k_count : forall k x, nth_error t k = Some x -> count x = uses t k;
  k_used : forall k x, nth_error t k = Some x -> n <= k -> needed x = true \/ 0 < count x }.
Theorem build_ok fuel : n * nd < fuel -> exists t, build (n * n) n nd fuel derivs = Some (Ok t) /\ plan_ok t.
Proof.
  intros F. unfold build. assert (n * n <? n = false) as -> by (apply Nat.ltb_ge; nia).
  set (p0 := {| tab := first_stacks n; gr := first_grid derivs |}). pose proof (first_pinv) as P0. fold p0 in P0.
  assert (LV0 : live p0).
  { intros i x Hi E. unfold p0 in E. cbn in E. rewrite nth_first in E. destruct (Nat.ltb_spec i n); [lia | discriminate]. }
  destruct (rounds_ok fuel p0 P0 LV0 ltac:(pose proof (left_max (gr p0)); lia)) as (p & -> & P & LV & Dn).
  destruct (need_all_ok (gr p) cells (tab p)) as (t & E & L & R).
  { intros i j I A. apply in_cells in I. destruct (p_act p P i j (proj1 I) A) as (_ & s & _ & Es & _). eauto. }
  exists t. split; [fold cells; now rewrite E|].
  assert (BK : forall k x', nth_error t k = Some x' -> exists x, nth_error (tab p) k = Some x /\ core x' = core x /\ count x' = count x /\
     (needed x' = true <-> exists i j, In (i, j) cells /\ active (gr p i j) = true /\ sid (gr p i j) = Some k)).
  { intros k x' Ek. assert (k < length (tab p)) as Hk by (rewrite <- L; apply nth_error_Some; congruence). destruct (nth_error (tab p) k) as [x|] eqn:Ex; [|apply nth_error_None in Ex; lia].
    destruct (R k x Ex) as (x2 & E2 & C2 & T2 & N2). assert (x2 = x') by congruence. subst x2. exists x. split; [reflexivity|]. split; [exact C2|]. split; [exact T2|]. rewrite N2.
    destruct (p_rng p P k x Ex) as [_ NF]. rewrite NF. split; [intros [Q|Q]; [discriminate | exact Q] | auto]. }
  assert (CO : forall k, option_map core (nth_error t k) = option_map core (nth_error (tab p) k)).
  { intros k. destruct (nth_error (tab p) k) as [x|] eqn:Ex.
    - destruct (R k x Ex) as (x2 & -> & C2 & _). cbn. now rewrite C2.
    - apply nth_error_None in Ex. rewrite <- L in Ex. apply nth_error_None in Ex. now rewrite Ex. }
  assert (ALS : forall x y, core x = core y -> i1 x = i1 y /\ i2 x = i2 y /\ parents x = parents y) by (unfold core; intros x y H; injection H; auto).
  assert (FW : forall k x, nth_error (tab p) k = Some x -> exists x', nth_error t k = Some x' /\ core x' = core x) by (intros k x Ex; destruct (R k x Ex) as (x2 & E2 & C2 & _); eauto).
  split.
  - intros k Hk. pose proof (p_first p P k Hk) as H. rewrite <- CO in H. destruct (nth_error t k) as [x|]; [|discriminate]. exists x. split; [reflexivity|]. cbn in H. unfold core in H. injection H. auto.
  - intros k x' Ek Hk. destruct (BK _ _ Ek) as (x & Ex & C & _). destruct (ALS _ _ C) as (C1 & C2 & C3).
    destruct (p_rest p P k x Ex Hk) as (a & b & ya & yb & H1 & H2 & H3 & H4 & H5 & H6 & H7 & H8).
    destruct (FW _ _ H4) as (za & Z1 & Z2). destruct (FW _ _ H5) as (zb & Z3 & Z4). destruct (ALS _ _ Z2) as (U1 & U2 & _). destruct (ALS _ _ Z4) as (V1 & V2 & _).
    exists a, b, za, zb. split; [congruence|]. split; [exact H2|]. split; [exact H3|]. split; [exact Z1|]. split; [exact Z3|]. split; [congruence|]. split; congruence.
  - intros k x' Ek. destruct (BK _ _ Ek) as (x & Ex & C & _). destruct (ALS _ _ C) as (C1 & C2 & _). destruct (p_rng p P k x Ex). lia.
  - rewrite L. now apply tab_bound.
  - intros k k' x x' Ek Ek' H1 H2. destruct (BK _ _ Ek) as (y & Ey & C & _). destruct (ALS _ _ C) as (C1 & C2 & _). destruct (BK _ _ Ek') as (y' & Ey' & C' & _). destruct (ALS _ _ C') as (C1' & C2' & _).
    apply (p_nodup p P k k' y y' Ey Ey'); congruence.
  - intros k x' Ek. destruct (BK _ _ Ek) as (x & Ex & C & _ & N). destruct (ALS _ _ C) as (C1 & C2 & _). rewrite N, C1, C2. split.
    + intros (i & j & I & A & Es). apply in_cells in I. destruct I as [Hi Hj]. destruct (done_run p i j P Dn Hj Hi A) as (s & y & Es' & Ey & I1 & RN).
      assert (s = k) by congruence. subst s. assert (y = x) by congruence. subst y. exists j. split; [exact Hj|]. rewrite I1. exact RN.
    + intros (j & Hj & RN). destruct RN as (R1 & R2 & R3 & R4). assert (A : active (gr p (i1 x) j) = true) by (apply (p_head p P); [lia | apply R2; lia | exact R3]).
      exists (i1 x), j. split; [apply in_cells; lia|]. split; [exact A|]. apply (p_tab p P k x j Ex). split; [exact R1|]. split; [exact A|]. split; [exact R2|]. destruct R4; unfold stop; auto.
  - intros j a b Hj RN. pose proof RN as (R1 & R2 & R3 & R4). assert (A : active (gr p a j) = true) by (apply (p_head p P); [lia | apply R2; lia | exact R3]).
    destruct (done_run p a j P Dn Hj ltac:(lia) A) as (s & y & Es & Ey & I1 & RN'). destruct (FW _ _ Ey) as (z & Z1 & Z2). destruct (ALS _ _ Z2) as (U1 & U2 & _).
    exists s, z. split; [exact Z1|]. split; [congruence|]. rewrite U2. exact (run_uniq j a _ _ RN' RN).
  - intros k x' Ek Hk. destruct (BK _ _ Ek) as (x & Ex & C & _). destruct (ALS _ _ C) as (C1 & C2 & _). rewrite C1, C2. exact (p_run p P k x Ex Hk).
  - intros k x' Ek. destruct (BK _ _ Ek) as (x & Ex & C & T & _). rewrite T, (p_count p P k x Ex). symmetry. apply uses_core. exact CO.
  - intros k x' Ek Hk. destruct (BK _ _ Ek) as (x & Ex & C & T & N). rewrite N, T. destruct (LV k x Hk Ex) as [Q|(l & j & Hl & Hj & A & Sd)]; [auto|]. left. exists l, j. split; [now apply in_cells | auto].
Qed.
End Plan.
