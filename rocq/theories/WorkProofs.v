(** Invariants of the work memory. *)
From Coq Require Import List Bool ZArith Lia.
From Verif Require Import Base WorkModel.
Import ListNotations.
Open Scope Z_scope.

(** * Where a block is kept *)
Inductive loc := LP (i : Z) | LL (t : wtype) (k : nat) | LV (v : vtype) (k : nat).
Definition at_ (w : shared) (l : loc) : option nat :=
  match l with
  | LP i => pblock (pages w i)
  | LL t k => nth_error (entries (lists w t)) k
  | LV v k => nth_error (entries (listsv w v)) k
  end.
Definition lsize (d : dims) (w : shared) (l : loc) : Z :=
  match l with LP i => pbytes (pages w i) | LL t _ => asize d t | LV v _ => vsize d v end.
Definition pow (i : Z) : Prop := 0 <= i < WORK_MAX_PAGES.

Record winv (d : dims) (w : shared) : Prop := {
  w_pos : forall i, 0 <= pbytes (pages w i);
  w_none : forall i, pbytes (pages w i) = 0 <-> pblock (pages w i) = None;
  w_range : forall i, ~ pow i -> pbytes (pages w i) = 0;
  w_inj : forall l l' b, at_ w l = Some b -> at_ w l' = Some b -> l = l';
  w_use : forall l b, at_ w l = Some b -> In (b, lsize d w l) (inuse (hp w));
  w_own : forall b n, In (b, n) (inuse (hp w)) -> exists l, at_ w l = Some b;
  w_dup : NoDup (map fst (inuse (hp w)));
  w_next : forall b n, In (b, n) (inuse (hp w)) -> (b < next (hp w))%nat;
  w_cap : forall t, Z.of_nat (length (entries (lists w t))) <= cap (lists w t);
  w_capv : forall v, Z.of_nat (length (entries (listsv w v))) <= cap (listsv w v) }.

Lemma wtype_eqb_refl t : wtype_eqb t t = true.
Proof. now destruct t. Qed.
Lemma wtype_eqb_eq a b : wtype_eqb a b = true -> a = b.
Proof. destruct a, b; (reflexivity || discriminate). Qed.
Lemma vtype_eqb_refl t : vtype_eqb t t = true.
Proof. now destruct t. Qed.
Lemma vtype_eqb_eq a b : vtype_eqb a b = true -> a = b.
Proof. destruct a, b; (reflexivity || discriminate). Qed.

Lemma init_winv d : winv d init_shared.
Proof.
  split; cbn; try (intros; lia); try tauto; try constructor.
  - intros l l' b H. destruct l as [|? [|]|? [|]]; discriminate.
  - intros l b H. destruct l as [|? [|]|? [|]]; discriminate.
Qed.

Lemma round_ge l : 0 <= l -> l <= round l /\ 0 <= round l /\ (l = 0 -> round l = 0) /\ (0 < l -> 0 < round l) /\ round l mod 16 = 0.
Proof.
  intros H. unfold round, WORK_ALIGNMENT. destruct (l mod 16 =? 0) eqn:E; cbn [negb].
  - apply Z.eqb_eq in E. lia.
  - apply Z.eqb_neq in E. pose proof (Z.div_mod l 16 ltac:(lia)) as Q. pose proof (Z.mod_pos_bound l 16 ltac:(lia)) as B.
    assert (0 <= l / 16) by (apply Z.div_pos; lia).
    refine (conj _ (conj _ (conj _ (conj _ _)))); [lia | lia | intros K; rewrite K in E; cbn in E; congruence | lia |].
    replace (l / 16 * 16 + 16) with ((l / 16 + 1) * 16) by ring. apply Z.mod_mul. lia.
Qed.
Lemma has_in h b : has h b = true <-> In b (map fst (inuse h)).
Proof.
  unfold has. rewrite existsb_exists, in_map_iff. split.
  - intros ([c n] & I & E). apply Nat.eqb_eq in E. exists (c, n). auto.
  - intros ([c n] & E & I). exists (c, n). split; [exact I|]. cbn in *. subst. apply Nat.eqb_refl.
Qed.

(** * The heap *)
Lemma free_inuse h b : In b (map fst (inuse h)) -> exists h', free (Some b) h = Ok h' /\ next h' = next h /\
  (forall c n, In (c, n) (inuse h') <-> In (c, n) (inuse h) /\ c <> b) /\ (NoDup (map fst (inuse h)) -> NoDup (map fst (inuse h'))).
Proof.
  intros I. cbn [free]. rewrite (proj2 (has_in h b) I). eexists. split; [reflexivity|]. cbn [next inuse]. split; [reflexivity|]. split.
  - intros c n. rewrite filter_In. cbn [fst]. rewrite negb_true_iff, Nat.eqb_neq. reflexivity.
  - induction (inuse h) as [|[c n] u IH]; cbn [filter map fst]; intros N; [constructor|].
    inversion N as [|? ? N1 N2]; subst. destruct (negb (Nat.eqb c b)) eqn:E.
    + cbn [map fst]. constructor; [|].
      * intros Q. apply N1. apply in_map_iff in Q. destruct Q as ([c' n'] & E' & Q). apply filter_In in Q. apply in_map_iff. exists (c', n'). tauto.
      * destruct (in_dec Nat.eq_dec b (map fst u)) as [J|J]; [now apply IH|].
        replace (filter (fun e => negb (Nat.eqb (fst e) b)) u) with u; [exact N2|].
        symmetry. clear - J. induction u as [|[c n] u IH]; [reflexivity|]. cbn [filter fst map] in *.
        destruct (Nat.eqb c b) eqn:K; [apply Nat.eqb_eq in K; subst; exfalso; apply J; now left|]. cbn [negb]. f_equal. apply IH. intros Q. apply J. now right.
    + destruct (in_dec Nat.eq_dec b (map fst u)) as [J|J]; [now apply IH|].
      replace (filter (fun e => negb (Nat.eqb (fst e) b)) u) with u; [exact N2|].
      symmetry. clear - J. induction u as [|[c' n'] u IH]; [reflexivity|]. cbn [filter fst map] in *.
      destruct (Nat.eqb c' b) eqn:K; [apply Nat.eqb_eq in K; subst; exfalso; apply J; now left|]. cbn [negb]. f_equal. apply IH. intros Q. apply J. now right.
Qed.

(** Putting a new block where none is kept any more. *)
Section Place.
Variable (d : dims) (w w' : shared) (l0 : loc) (b0 : nat) (n0 : Z) (h : heap).
Hypothesis W : winv d w.
(** the heap without what was at l0 *)
Hypothesis HU : forall c n, In (c, n) (inuse h) <-> In (c, n) (inuse (hp w)) /\ at_ w l0 <> Some c.
Hypothesis HD : NoDup (map fst (inuse h)).
Hypothesis HN : next h = next (hp w).
Hypothesis HW : hp w' = fst (malloc n0 h).
Hypothesis HB : b0 = next h.
Hypothesis A0 : at_ w' l0 = Some b0.
Hypothesis A1 : forall l, l <> l0 -> at_ w' l = at_ w l.
Hypothesis S0 : lsize d w' l0 = n0.
Hypothesis S1 : forall l, l <> l0 -> lsize d w' l = lsize d w l.
Lemma loc_dec (l l' : loc) : {l = l'} + {l <> l'}.
Proof. decide equality; try apply Nat.eq_dec; try apply Z.eq_dec; decide equality. Qed.
Lemma old_lt l b : at_ w l = Some b -> (b < b0)%nat.
Proof. intros E. rewrite HB, HN. eapply w_next; [exact W | eapply w_use; eauto]. Qed.
Lemma place_inj l l' b : at_ w' l = Some b -> at_ w' l' = Some b -> l = l'.
Proof.
  intros E E'. destruct (loc_dec l l0) as [->|N], (loc_dec l' l0) as [->|N']; [reflexivity|..].
  - rewrite A0 in E. injection E as <-. rewrite A1 in E' by assumption. apply old_lt in E'. lia.
  - rewrite A0 in E'. injection E' as <-. rewrite A1 in E by assumption. apply old_lt in E. lia.
  - rewrite A1 in E, E' by assumption. eapply w_inj; eauto.
Qed.
Lemma place_use l b : at_ w' l = Some b -> In (b, lsize d w' l) (inuse (hp w')).
Proof.
  intros E. rewrite HW. cbn. destruct (loc_dec l l0) as [->|N].
  - left. rewrite A0 in E. injection E as <-. rewrite S0, HB. reflexivity.
  - right. rewrite A1 in E by assumption. rewrite S1 by assumption. apply HU. split; [eapply w_use; eauto|].
    intros K. apply N. eapply w_inj; eauto.
Qed.
Lemma place_own b n : In (b, n) (inuse (hp w')) -> exists l, at_ w' l = Some b.
Proof.
  rewrite HW. cbn. intros [E|I].
  - injection E as <- <-. exists l0. rewrite A0, HB. reflexivity.
  - apply HU in I. destruct I as [I N]. apply (w_own d w W) in I. destruct I as [l E]. exists l.
    destruct (loc_dec l l0) as [->|K]; [contradiction | now rewrite A1].
Qed.
Lemma place_dup : NoDup (map fst (inuse (hp w'))).
Proof.
  rewrite HW. cbn. constructor; [|exact HD]. intros I. apply in_map_iff in I. destruct I as ([c n] & E & I). cbn in E. subst c.
  apply HU in I. destruct I as [I _]. apply (w_next d w W) in I. rewrite HN in I. lia.
Qed.
Lemma place_next b n : In (b, n) (inuse (hp w')) -> (b < next (hp w'))%nat.
Proof.
  rewrite HW. cbn. intros [E|I]; [injection E; intros; lia|]. apply HU in I. destruct I as [I _]. apply (w_next d w W) in I. lia.
Qed.
End Place.

(** ** A page *)
Lemma set_page_at w h i p l : at_ (set_page w h i p) l = match l with LP j => if i =? j then pblock p else at_ w l | _ => at_ w l end.
Proof. destruct l as [j| |]; cbn; try reflexivity. now destruct (i =? j). Qed.
Lemma page_winv d w w' i n h b : winv d w -> pow i -> 0 < n ->
  (forall c m, In (c, m) (inuse h) <-> In (c, m) (inuse (hp w)) /\ pblock (pages w i) <> Some c) ->
  NoDup (map fst (inuse h)) -> next h = next (hp w) -> malloc n h = (w', b) ->
  winv d (set_page w w' i {| pbytes := n; pblock := Some b |}).
Proof.
  intros W Hi Hn HU HD HN HM. unfold malloc in HM. injection HM as <- <-.
  set (w1 := set_page _ _ _ _).
  assert (A0 : at_ w1 (LP i) = Some (next h)) by (cbn; now rewrite Z.eqb_refl).
  assert (A1 : forall l, l <> LP i -> at_ w1 l = at_ w l).
  { intros [j| |] N; cbn; try reflexivity. destruct (Z.eqb_spec i j) as [->|]; [congruence | reflexivity]. }
  assert (S0 : lsize d w1 (LP i) = n) by (cbn; now rewrite Z.eqb_refl).
  assert (S1 : forall l, l <> LP i -> lsize d w1 l = lsize d w l).
  { intros [j| |] N; cbn; try reflexivity. destruct (Z.eqb_spec i j) as [->|]; [congruence | reflexivity]. }
  split.
  - intros j. cbn. destruct (i =? j); cbn; [lia | apply (w_pos d w W)].
  - intros j. cbn. destruct (i =? j); cbn; [split; [lia | discriminate] | apply (w_none d w W)].
  - intros j Hj. cbn. destruct (Z.eqb_spec i j) as [->|]; [contradiction | now apply (w_range d w W)].
  - exact (place_inj d w w1 (LP i) _ h W HN eq_refl A0 A1).
  - exact (place_use d w w1 (LP i) _ n h W HU eq_refl eq_refl A0 A1 S0 S1).
  - exact (place_own d w w1 (LP i) _ n h W HU eq_refl eq_refl A0 A1).
  - exact (place_dup d w w1 (LP i) _ n h W HU HD HN eq_refl eq_refl).
  - exact (place_next d w w1 (LP i) _ n h W HU HN eq_refl eq_refl).
  - apply (w_cap d w W).
  - apply (w_capv d w W).
Qed.
Lemma renew_ok d w i len : winv d w -> pow i -> 0 < min_page d -> exists w',
  renew d w i len = Ok w' /\ winv d w' /\ (forall j, j <> i -> pages w' j = pages w j) /\ lists w' = lists w /\ listsv w' = listsv w /\
  pbytes (pages w' i) = Z.max (min_page d) len.
Proof.
  intros W Hi Hm. unfold renew. destruct (pblock (pages w i)) as [b|] eqn:E.
  - destruct (free_inuse (hp w) b) as (h & -> & N & U & D).
    { apply in_map_iff. exists (b, lsize d w (LP i)). split; [reflexivity|]. now apply (w_use d w W). }
    cbn [malloc]. eexists. split; [reflexivity|]. refine (conj _ (conj _ (conj eq_refl (conj eq_refl _)))).
    + refine (page_winv d w _ i (Z.max (min_page d) len) h _ W Hi _ _ (D (w_dup d w W)) N eq_refl); [lia|].
      intros c m. rewrite U, E. intuition congruence.
    + intros j Hj. cbn. destruct (Z.eqb_spec i j); [congruence | reflexivity].
    + cbn. now rewrite Z.eqb_refl.
  - cbn [free malloc]. eexists. split; [reflexivity|]. refine (conj _ (conj _ (conj eq_refl (conj eq_refl _)))).
    + refine (page_winv d w _ i (Z.max (min_page d) len) (hp w) _ W Hi _ _ (w_dup d w W) eq_refl eq_refl); [lia|].
      intros c m. rewrite E. intuition congruence.
    + intros j Hj. cbn. destruct (Z.eqb_spec i j); [congruence | reflexivity].
    + cbn. now rewrite Z.eqb_refl.
Qed.

(** ** A list *)
Lemma nth_app_last {A} (l : list A) b : nth_error (l ++ [b]) (length l) = Some b.
Proof. rewrite nth_error_app2 by lia. now rewrite Nat.sub_diag. Qed.
Lemma nth_app_other {A} (l : list A) b k : k <> length l -> nth_error (l ++ [b]) k = nth_error l k.
Proof.
  intros H. destruct (Nat.lt_ge_cases k (length l)); [now apply nth_error_app1|].
  transitivity (@None A); [apply nth_error_None; rewrite app_length; cbn; lia | symmetry; apply nth_error_None; lia].
Qed.
Lemma list_winv d w t h l b : winv d w -> malloc (asize d t) (hp w) = (h, b) ->
  entries l = entries (lists w t) ++ [b] -> Z.of_nat (length (entries l)) <= cap l -> winv d (set_list w h t l).
Proof.
  intros W HM HL HC. unfold malloc in HM. injection HM as <- <-. set (w1 := set_list _ _ _ _).
  set (l0 := LL t (length (entries (lists w t)))).
  assert (A0 : at_ w1 l0 = Some (next (hp w))) by (cbn; rewrite wtype_eqb_refl, HL; apply nth_app_last).
  assert (A1 : forall l', l' <> l0 -> at_ w1 l' = at_ w l').
  { intros [j|t' k|] N; cbn; try reflexivity. destruct (wtype_eqb t t') eqn:E; [|reflexivity].
    apply wtype_eqb_eq in E. subst t'. rewrite HL. apply nth_app_other. intros ->. now apply N. }
  assert (S1 : forall l', l' <> l0 -> lsize d w1 l' = lsize d w l') by reflexivity.
  assert (NO : at_ w l0 = None) by (cbn; apply nth_error_None; lia).
  assert (HU : forall c n, In (c, n) (inuse (hp w)) <-> In (c, n) (inuse (hp w)) /\ at_ w l0 <> Some c) by (intros; rewrite NO; intuition congruence).
  split.
  - apply (w_pos d w W).
  - apply (w_none d w W).
  - apply (w_range d w W).
  - exact (place_inj d w w1 l0 _ (hp w) W eq_refl eq_refl A0 A1).
  - exact (place_use d w w1 l0 _ (asize d t) (hp w) W HU eq_refl eq_refl A0 A1 eq_refl S1).
  - exact (place_own d w w1 l0 _ (asize d t) (hp w) W HU eq_refl eq_refl A0 A1).
  - exact (place_dup d w w1 l0 _ (asize d t) (hp w) W HU (w_dup d w W) eq_refl eq_refl eq_refl).
  - exact (place_next d w w1 l0 _ (asize d t) (hp w) W HU eq_refl eq_refl eq_refl).
  - intros t'. cbn. destruct (wtype_eqb t t'); [exact HC | apply (w_cap d w W)].
  - apply (w_capv d w W).
Qed.
Lemma listv_winv d w v h l b : winv d w -> malloc (vsize d v) (hp w) = (h, b) ->
  entries l = entries (listsv w v) ++ [b] -> Z.of_nat (length (entries l)) <= cap l -> winv d (set_listv w h v l).
Proof.
  intros W HM HL HC. unfold malloc in HM. injection HM as <- <-. set (w1 := set_listv _ _ _ _).
  set (l0 := LV v (length (entries (listsv w v)))).
  assert (A0 : at_ w1 l0 = Some (next (hp w))) by (cbn; rewrite vtype_eqb_refl, HL; apply nth_app_last).
  assert (A1 : forall l', l' <> l0 -> at_ w1 l' = at_ w l').
  { intros [j| |t' k] N; cbn; try reflexivity. destruct (vtype_eqb v t') eqn:E; [|reflexivity].
    apply vtype_eqb_eq in E. subst t'. rewrite HL. apply nth_app_other. intros ->. now apply N. }
  assert (S1 : forall l', l' <> l0 -> lsize d w1 l' = lsize d w l') by reflexivity.
  assert (NO : at_ w l0 = None) by (cbn; apply nth_error_None; lia).
  assert (HU : forall c n, In (c, n) (inuse (hp w)) <-> In (c, n) (inuse (hp w)) /\ at_ w l0 <> Some c) by (intros; rewrite NO; intuition congruence).
  split.
  - apply (w_pos d w W).
  - apply (w_none d w W).
  - apply (w_range d w W).
  - exact (place_inj d w w1 l0 _ (hp w) W eq_refl eq_refl A0 A1).
  - exact (place_use d w w1 l0 _ (vsize d v) (hp w) W HU eq_refl eq_refl A0 A1 eq_refl S1).
  - exact (place_own d w w1 l0 _ (vsize d v) (hp w) W HU eq_refl eq_refl A0 A1).
  - exact (place_dup d w w1 l0 _ (vsize d v) (hp w) W HU (w_dup d w W) eq_refl eq_refl eq_refl).
  - exact (place_next d w w1 l0 _ (vsize d v) (hp w) W HU eq_refl eq_refl eq_refl).
  - apply (w_cap d w W).
  - intros t'. cbn. destruct (vtype_eqb v t'); [exact HC | apply (w_capv d w W)].
Qed.

(** * Positions *)
Definition ple (p q : pos) : Prop :=
  (ipage p < ipage q \/ ipage p = ipage q /\ ibyte p <= ibyte q) /\
  (forall t, (ilist p t <= ilist q t)%nat) /\ (forall v, (ilistv p v <= ilistv q v)%nat).
Definition prange (w : shared) (p : pos) : Prop :=
  (pow (ipage p) /\ ibyte p mod 16 = 0) /\ 0 <= ibyte p <= pbytes (pages w (ipage p)) /\
  (forall t, (ilist p t <= length (entries (lists w t)))%nat) /\ (forall v, (ilistv p v <= length (entries (listsv w v)))%nat).
(** What a request at position p can change. *)
Definition ext (p : pos) (w w' : shared) : Prop :=
  (forall i, i < ipage p \/ i = ipage p /\ 0 < ibyte p -> pages w' i = pages w i) /\
  pbytes (pages w (ipage p)) <= pbytes (pages w' (ipage p)) /\
  (forall t k b, nth_error (entries (lists w t)) k = Some b -> nth_error (entries (lists w' t)) k = Some b) /\
  (forall v k b, nth_error (entries (listsv w v)) k = Some b -> nth_error (entries (listsv w' v)) k = Some b).
Lemma ple_refl p : ple p p.
Proof. refine (conj _ (conj _ _)); [right | |]; intros; lia. Qed.
Lemma ple_trans p q r : ple p q -> ple q r -> ple p r.
Proof.
  intros (A & B & C) (A' & B' & C'). refine (conj _ (conj _ _)); [lia | |].
  - intros t. specialize (B t). specialize (B' t). lia.
  - intros t. specialize (C t). specialize (C' t). lia.
Qed.
Lemma ext_refl p w : ext p w w.
Proof. refine (conj _ (conj _ (conj _ _))); auto. lia. Qed.
Lemma ext_trans p q w w' w'' : 0 <= ibyte p -> ple p q -> ext p w w' -> ext q w' w'' -> ext p w w''.
Proof.
  intros H0 (A & _ & _) (E1 & E2 & E3 & E4) (F1 & F2 & F3 & F4).
  refine (conj _ (conj _ (conj _ _))); auto.
  - intros i Hi. rewrite F1 by lia. now apply E1.
  - destruct A as [A|[A A']]; [rewrite F1 by lia; exact E2 | rewrite <- A in F2; lia].
Qed.
Lemma ext_len {A} (l l' : list A) : (forall k b, nth_error l k = Some b -> nth_error l' k = Some b) -> (length l <= length l')%nat.
Proof.
  intros H. destruct l as [|a l]; [cbn; lia|]. destruct (nth_error (a :: l) (length l)) as [b|] eqn:E.
  - apply H in E. assert (Q : nth_error l' (length l) <> None) by congruence.
    apply nth_error_Some in Q. cbn [length]. lia.
  - apply nth_error_None in E. cbn in E. lia.
Qed.
Lemma prange_ext p q w w' : ple q p -> ext p w w' -> prange w q -> prange w' q.
Proof.
  intros (A & _) (E1 & E2 & E3 & E4) (R1 & R2 & R3 & R4). refine (conj R1 (conj _ (conj _ _))).
  - destruct (Z_lt_ge_dec 0 (ibyte q)).
    + rewrite E1 by lia. exact R2.
    + destruct A as [A|[A A']]; [rewrite E1 by lia; exact R2 | rewrite A in *; lia].
  - intros t. pose proof (ext_len _ _ (E3 t)). specialize (R3 t). lia.
  - intros v. pose proof (ext_len _ _ (E4 v)). specialize (R4 v). lia.
Qed.

(** * Arrays *)
Definition inside (r : region) (b : nat) (x : Z) : Prop := rblock r = Some b /\ roff r <= x < roff r + rlen r.
Definition disjoint (r r' : region) : Prop := forall b x, ~ (inside r b x /\ inside r' b x).
Definition before (p : pos) (l : loc) (e : Z) : Prop :=
  match l with LP i => i < ipage p \/ i = ipage p /\ e <= ibyte p | LL t k => (k < ilist p t)%nat | LV v k => (k < ilistv p v)%nat end.
Definition after_ (p : pos) (l : loc) (s : Z) : Prop :=
  match l with LP i => ipage p < i \/ i = ipage p /\ ibyte p <= s | LL t k => (ilist p t <= k)%nat | LV v k => (ilistv p v <= k)%nat end.
Definition placed (d : dims) (w : shared) (p : pos) (r : region) : Prop :=
  rlen r <= 0 \/ exists l b, rblock r = Some b /\ at_ w l = Some b /\ (0 <= roff r /\ roff r mod 16 = 0) /\ roff r + rlen r <= lsize d w l /\ before p l (roff r + rlen r).
Definition new_at (w : shared) (p : pos) (r : region) : Prop :=
  rlen r <= 0 \/ exists l b, rblock r = Some b /\ at_ w l = Some b /\ after_ p l (roff r).
Lemma placed_ext d w w' p q r : ple q p -> ext p w w' -> placed d w q r -> placed d w' q r.
Proof.
  intros (A & _) (E1 & E2 & E3 & E4) [H|(l & b & R & L & O & S & B)]; [now left|]. destruct (Z_le_gt_dec (rlen r) 0) as [Z|Z]; [now left|].
  right. exists l, b. destruct l as [i|t k|v k]; cbn [at_ lsize before] in *.
  - rewrite E1 by lia. auto.
  - auto.
  - auto.
Qed.
Lemma placed_le d w p q r : ple q p -> placed d w q r -> placed d w p r.
Proof.
  intros (A & B & C) [H|(l & b & R & L & O & S & K)]; [now left|]. right. exists l, b. refine (conj R (conj L (conj O (conj S _)))).
  destruct l as [i|t k|v k]; cbn [before] in *; [lia | specialize (B t); lia | specialize (C v); lia].
Qed.
Lemma placed_new d w p r r' : winv d w -> placed d w p r -> new_at w p r' -> disjoint r' r.
Proof.
  intros W [H|(l & b & R & L & O & S & K)] [H'|(l' & b' & R' & L' & K')] c x [[I1 I2] [I3 I4]]; try lia.
  assert (b = b') by congruence. subst b'. assert (l = l') by (eapply w_inj; eauto). subst l'.
  destruct l; cbn [before after_] in *; lia.
Qed.
Definition frame_ok (d : dims) (w : shared) (f : frame) : Prop :=
  prange w (fpos f) /\ Forall (placed d w (fpos f)) (fregs f) /\ ForallOrdPairs disjoint (fregs f).
Definition got (d : dims) (w : shared) (p : pos) (w' : shared) (p' : pos) (rs : list region) : Prop :=
  winv d w' /\ prange w' p' /\ ple p p' /\ ext p w w' /\ Forall (placed d w' p') rs /\ Forall (new_at w' p) rs /\ ForallOrdPairs disjoint rs.

(** ** From a page *)
Lemma get_page_ok d w p n : winv d w -> prange w p -> 0 < min_page d -> 0 <= n ->
  get_page d w p n = Err (-1) \/ exists w' p' rs, get_page d w p n = Ok (w', p', rs) /\ got d w p w' p' rs.
Proof.
  intros W ((R1 & R0) & R2 & R3 & R4) Hm Hn. unfold get_page, get_common. destruct (round_ge n Hn) as (G1 & G2 & G3 & G4 & G5).
  set (len := round n) in *. clearbody len.
  assert (ONE : forall r, ForallOrdPairs disjoint [r]) by (intros r; constructor; [constructor | constructor]).
  (* a page i renewed, or big enough, holding the array at its start *)
  assert (FIN : forall w' i s e, e = s + len -> winv d w' -> pow i -> ext p w w' -> (i = ipage p /\ ibyte p = s \/ i = ipage p + 1 /\ s = 0) ->
            0 <= s -> s mod 16 = 0 -> s + len <= pbytes (pages w' i) -> lists w' = lists w -> listsv w' = listsv w ->
            got d w p w' (move p i e) [{| rblock := pblock (pages w' i); roff := s; rlen := n |}]).
  { intros w' i s e -> W' Hi E Hs Hs0 Hs16 Hlen EL EV.
    assert (PB : 0 < n -> exists b, pblock (pages w' i) = Some b).
    { intros K. destruct (pblock (pages w' i)) as [b|] eqn:PB; [now exists b|]. apply (w_none d w' W') in PB. lia. }
    refine (conj W' (conj _ (conj _ (conj E (conj _ (conj _ (ONE _))))))).
    - refine (conj (conj Hi _) (conj _ (conj _ _))); cbn [ibyte move ipage ilist ilistv].
      + rewrite Z.add_mod, Hs16, G5 by lia. reflexivity.
      + lia.
      + rewrite EL. exact R3.
      + rewrite EV. exact R4.
    - refine (conj _ (conj _ _)); cbn; intros; lia.
    - constructor; [|constructor]. destruct (Z_le_gt_dec n 0) as [Q|Q]; [left; cbn; lia|]. destruct PB as [b PB]; [lia|].
      right. exists (LP i), b. cbn [rblock roff rlen at_ lsize before move ipage ibyte]. refine (conj PB (conj PB _)). lia.
    - constructor; [|constructor]. destruct (Z_le_gt_dec n 0) as [Q|Q]; [left; cbn; lia|]. destruct PB as [b PB]; [lia|].
      right. exists (LP i), b. cbn [rblock roff rlen at_ after_]. refine (conj PB (conj PB _)). lia. }
  destruct ((ibyte p =? 0) && (pbytes (pages w (ipage p)) =? 0)) eqn:B1.
  - apply andb_prop in B1. destruct B1 as [Z0 Z1]. apply Z.eqb_eq in Z0, Z1. right. cbn [malloc].
    eexists _, _, _. split; [reflexivity|]. cbn [ipage move].
    apply FIN; try reflexivity; try lia.
    + refine (page_winv d w _ (ipage p) _ (hp w) _ W R1 _ _ (w_dup d w W) eq_refl eq_refl); [lia|].
      intros c m. apply (w_none d w W) in Z1. rewrite Z1. intuition congruence.
    + exact R1.
    + refine (conj _ (conj _ (conj _ _))); cbn; auto.
      * intros i Hi. destruct (Z.eqb_spec (ipage p) i); [lia | reflexivity].
      * rewrite Z.eqb_refl. cbn. lia.
    + cbn. rewrite Z.eqb_refl. cbn. lia.
  - destruct ((ibyte p =? 0) && (pbytes (pages w (ipage p)) <? len)) eqn:B2.
    + apply andb_prop in B2. destruct B2 as [Z0 Z1]. apply Z.eqb_eq in Z0. apply Z.ltb_lt in Z1. right.
      destruct (renew_ok d w (ipage p) len W R1 Hm) as (w' & -> & W' & EP & EL & EV & EB).
      eexists _, _, _. split; [reflexivity|]. cbn [ipage move].
      apply FIN; try assumption; try lia; try reflexivity.
      refine (conj _ (conj _ (conj _ _))); [|lia|rewrite EL; auto|rewrite EV; auto]. intros i Hi. apply EP. lia.
    + destruct (pbytes (pages w (ipage p)) <? ibyte p + len) eqn:B3.
      * apply Z.ltb_lt in B3. destruct (WORK_MAX_PAGES <=? ipage p + 1) eqn:B4; [now left|]. apply Z.leb_gt in B4.
        assert (Hi : pow (ipage p + 1)) by (unfold pow in *; lia).
        assert (ib : 0 < ibyte p).
        { destruct (Z.eqb_spec (ibyte p) 0) as [Q|Q]; [|lia]. cbn [andb] in B2. apply Z.ltb_ge in B2. lia. }
        right. destruct (pbytes (pages w (ipage p + 1)) <? len) eqn:B5.
        -- destruct (renew_ok d w (ipage p + 1) len W Hi Hm) as (w' & -> & W' & EP & EL & EV & EB).
           eexists _, _, _. split; [reflexivity|]. cbn [ipage move].
           apply FIN; try assumption; try lia; try reflexivity.
           refine (conj _ (conj _ (conj _ _))); [|rewrite EP; lia|rewrite EL; auto|rewrite EV; auto]. intros i Hi'. apply EP. lia.
        -- apply Z.ltb_ge in B5. eexists _, _, _. split; [reflexivity|]. cbn [ipage move].
           apply FIN; try assumption; try reflexivity; try lia. apply ext_refl.
      * apply Z.ltb_ge in B3. right. eexists _, _, _. split; [reflexivity|]. cbn [ipage move].
        apply FIN; try assumption; try reflexivity; try lia. apply ext_refl.
Qed.

(** ** From a list *)
Lemma check_entries i l : entries (check_bounds i l) = entries l.
Proof. unfold check_bounds. destruct (_ <=? _); reflexivity. Qed.
Lemma check_cap i l : 0 <= cap l -> Z.of_nat i < cap (check_bounds i l) /\ cap l <= cap (check_bounds i l).
Proof.
  intros H. unfold check_bounds, WORK_LIST_INC. destruct (cap l <=? Z.of_nat i) eqn:E; cbn [cap]; [|apply Z.leb_gt in E; lia].
  apply Z.leb_le in E. pose proof (Z.div_mod (Z.of_nat i - cap l + 1) 1024 ltac:(lia)) as Q.
  pose proof (Z.mod_pos_bound (Z.of_nat i - cap l + 1) 1024 ltac:(lia)). lia.
Qed.
Lemma write_ok b l : Z.of_nat (length (entries l)) < cap l -> write (length (entries l)) b l = Ok {| entries := entries l ++ [b]; cap := cap l |}.
Proof. intros H. unfold write. rewrite Nat.eqb_refl. cbn [andb]. apply Z.ltb_lt in H. now rewrite H. Qed.
Lemma cap_nonneg d w t : winv d w -> 0 <= cap (lists w t).
Proof. intros W. pose proof (w_cap d w W t). lia. Qed.
Lemma cap_nonnegv d w t : winv d w -> 0 <= cap (listsv w t).
Proof. intros W. pose proof (w_capv d w W t). lia. Qed.
Lemma set_list_ext p w h t l : (forall k b, nth_error (entries (lists w t)) k = Some b -> nth_error (entries l) k = Some b) -> ext p w (set_list w h t l).
Proof.
  intros H. refine (conj _ (conj _ (conj _ _))); cbn; auto; [lia|].
  intros t' k b E. destruct (wtype_eqb t t') eqn:Q; [apply wtype_eqb_eq in Q; subst; auto | exact E].
Qed.
Lemma set_listv_ext p w h t l : (forall k b, nth_error (entries (listsv w t)) k = Some b -> nth_error (entries l) k = Some b) -> ext p w (set_listv w h t l).
Proof.
  intros H. refine (conj _ (conj _ (conj _ _))); cbn; auto; [lia|].
  intros t' k b E. destruct (vtype_eqb t t') eqn:Q; [apply vtype_eqb_eq in Q; subst; auto | exact E].
Qed.
Lemma app_nth {A} (l m : list A) k b : nth_error l k = Some b -> nth_error (l ++ m) k = Some b.
Proof. intros H. rewrite nth_error_app1; [exact H|]. apply nth_error_Some. congruence. Qed.
Lemma get1_ok d w p t : winv d w -> prange w p -> exists w' p' rs, get1 d w p t = Ok (w', p', rs) /\ got d w p w' p' rs.
Proof.
  intros W (R1 & R2 & R3 & R4). unfold get1. set (i := ilist p t).
  assert (Hi : (i <= length (entries (lists w t)))%nat) by apply R3.
  assert (FIN : forall w' b, winv d w' -> ext p w w' -> nth_error (entries (lists w' t)) i = Some b ->
            got d w p w' (adv p t 1) [whole b (asize d t)]).
  { intros w' b W' E N. assert (Q : prange w' p) by (eapply prange_ext; [apply ple_refl | exact E | exact (conj R1 (conj R2 (conj R3 R4)))]).
    destruct Q as (Q1 & Q2 & Q3 & Q4).
    refine (conj W' (conj _ (conj _ (conj E (conj _ (conj _ _)))))).
    - refine (conj Q1 (conj Q2 (conj _ Q4))). cbn [ilist adv]. intros t'. destruct (wtype_eqb t t') eqn:K; [|apply Q3].
      apply wtype_eqb_eq in K. subst t'. fold i. assert (nth_error (entries (lists w' t)) i <> None) by congruence. apply nth_error_Some in H. lia.
    - refine (conj _ (conj _ _)); cbn; [lia | intros t0; destruct (wtype_eqb t t0); lia | intros; lia].
    - constructor; [|constructor]. destruct (Z_le_gt_dec (asize d t) 0); [now left|]. right. exists (LL t i), b. cbn. rewrite wtype_eqb_refl. fold i. refine (conj eq_refl (conj N (conj (conj _ eq_refl) (conj _ _)))); lia.
    - constructor; [|constructor]. right. exists (LL t i), b. cbn. fold i. refine (conj eq_refl (conj N _)). lia.
    - constructor; constructor. }
  destruct (Nat.leb_spec (length (entries (lists w t))) i) as [L|L].
  - assert (i = length (entries (lists w t))) by lia. unfold new_entry. rewrite H. cbn [malloc].
    pose proof (check_cap (length (entries (lists w t))) _ (cap_nonneg d w t W)) as [C1 C2].
    assert (WR := write_ok (next (hp w)) (check_bounds (length (entries (lists w t))) (lists w t))). rewrite check_entries in WR. rewrite WR by exact C1. clear WR.
    set (w1 := set_list _ _ _ _).
    assert (N : nth_error (entries (lists w1 t)) i = Some (next (hp w))) by (cbn; rewrite wtype_eqb_refl; cbn; rewrite H; apply nth_app_last).
    unfold entry. fold i. rewrite <- H, N. eexists _, _, _. split; [reflexivity|]. apply FIN; [|apply set_list_ext; intros; cbn; now apply app_nth|exact N].
    eapply list_winv; [exact W | reflexivity | reflexivity|]. cbn [entries cap]. rewrite app_length. cbn [length]. lia.
  - unfold entry. destruct (nth_error (entries (lists w t)) i) as [b|] eqn:N; [|apply nth_error_None in N; lia].
    eexists _, _, _. split; [reflexivity|]. apply FIN; [exact W | apply ext_refl | exact N].
Qed.

Lemma winv_same d w w' : winv d w -> hp w' = hp w -> (forall i, pages w' i = pages w i) ->
  (forall t, entries (lists w' t) = entries (lists w t) /\ cap (lists w t) <= cap (lists w' t)) ->
  (forall v, entries (listsv w' v) = entries (listsv w v) /\ cap (listsv w v) <= cap (listsv w' v)) -> winv d w'.
Proof.
  intros W H P L V.
  assert (A : forall l, at_ w' l = at_ w l).
  { intros [i|t k|v k]; cbn; [now rewrite P | now rewrite (proj1 (L t)) | now rewrite (proj1 (V v))]. }
  assert (Z : forall l, lsize d w' l = lsize d w l) by (intros [i|t k|v k]; cbn; [now rewrite P | reflexivity | reflexivity]).
  split.
  - intros i. rewrite P. apply (w_pos d w W).
  - intros i. rewrite P. apply (w_none d w W).
  - intros i. rewrite P. apply (w_range d w W).
  - intros l l' b. rewrite !A. apply (w_inj d w W).
  - intros l b. rewrite A, Z, H. apply (w_use d w W).
  - intros b n. rewrite H. intros K. apply (w_own d w W) in K. destruct K as [l K]. exists l. now rewrite A.
  - rewrite H. apply (w_dup d w W).
  - intros b n. rewrite H. apply (w_next d w W).
  - intros t. destruct (L t) as [-> C]. pose proof (w_cap d w W t). lia.
  - intros t. destruct (V t) as [-> C]. pose proof (w_capv d w W t). lia.
Qed.
Lemma fill_ok d t k : forall w h l, winv d (set_list w h t l) -> Z.of_nat (length (entries l)) + Z.of_nat k <= cap l ->
  exists h' bs, fill (asize d t) k h l = Ok (h', {| entries := entries l ++ bs; cap := cap l |}) /\ length bs = k /\
  winv d (set_list w h' t {| entries := entries l ++ bs; cap := cap l |}).
Proof.
  induction k as [|k IH]; intros w h l W C.
  - exists h, []. rewrite app_nil_r. destruct l; auto.
  - cbn [fill malloc]. rewrite write_ok by lia. set (b := next h). set (h1 := {| inuse := _; next := _ |}).
    set (l1 := {| entries := entries l ++ [b]; cap := cap l |}).
    assert (W1 : winv d (set_list w h1 t l1)).
    { eapply winv_same with (w := set_list (set_list w h t l) h1 t l1); cbn.
      - eapply list_winv with (b := b); [exact W | reflexivity | |]; cbn; [now rewrite wtype_eqb_refl|]. rewrite app_length. cbn [length]. lia.
      - reflexivity.
      - reflexivity.
      - intros t'. destruct (wtype_eqb t t'); split; auto; lia.
      - intros; split; auto; lia. }
    destruct (IH w h1 l1 W1) as (h' & bs & E & L & W2); [cbn; rewrite app_length; cbn [length]; lia|].
    exists h', (b :: bs). cbn [entries cap l1] in *. rewrite <- app_assoc in E, W2. cbn [app] in E, W2. cbn [length]. auto.
Qed.
Lemma take_ok size k : forall i l, (i + k <= length (entries l))%nat ->
  exists rs, take size k i l = Ok rs /\ Forall (fun r => exists j b, (i <= j < i + k)%nat /\ nth_error (entries l) j = Some b /\ r = whole b size) rs.
Proof.
  induction k as [|k IH]; intros i l H; [exists []; split; [reflexivity | constructor]|]. cbn [take]. unfold entry.
  destruct (nth_error (entries l) i) as [b|] eqn:N; [|apply nth_error_None in N; lia].
  destruct (IH (S i) l ltac:(lia)) as (rs & -> & F). eexists. split; [reflexivity|]. constructor.
  - exists i, b. repeat split; auto; lia.
  - eapply Forall_impl; [|exact F]. intros r (j & c & J & Q). exists j, c. split; [lia | exact Q].
Qed.
Lemma take_dis d w t k : forall i rs, winv d w -> take (asize d t) k i (lists w t) = Ok rs -> ForallOrdPairs disjoint rs.
Proof.
  induction k as [|k IH]; intros i rs W; cbn [take]; intros E; [injection E as <-; constructor|]. unfold entry in E.
  destruct (nth_error (entries (lists w t)) i) as [b|] eqn:N; [|discriminate].
  destruct (take (asize d t) k (S i) (lists w t)) as [rs'| |] eqn:T; try discriminate. injection E as <-. constructor; [|eapply IH; eauto].
  assert (L : (S i + k <= length (entries (lists w t)))%nat \/ k = O).
  { clear - T. revert i rs' T. induction k as [|k IH]; intros i rs' T; [now right|]. left. cbn [take] in T. unfold entry in T.
    destruct (nth_error (entries (lists w t)) (S i)) as [b|] eqn:N; [|discriminate].
    destruct (take (asize d t) k (S (S i)) (lists w t)) as [rs| |] eqn:T'; try discriminate.
    destruct (IH _ _ T') as [Q|Q]; [lia|]. subst. assert (nth_error (entries (lists w t)) (S i) <> None) by congruence. apply nth_error_Some in H. lia. }
  destruct L as [L| ->]; [|cbn in T; injection T as <-; constructor].
  destruct (take_ok (asize d t) k _ _ L) as (rs2 & T2 & F). rewrite T in T2. injection T2 as <-.
  eapply Forall_impl; [|exact F]. intros r (j & c & J & Q & ->) x y [[I1 _] [I2 _]]. cbn in I1, I2.
  assert (b = c) by congruence. subst c. pose proof (w_inj d w W (LL t i) (LL t j) b N Q) as K. injection K. lia.
Qed.

Lemma getv_ok d w p v t k : winv d w -> prange w p -> exists w' p' rs, getv d w p v t k = Ok (w', p', rs) /\ got d w p w' p' rs.
Proof.
  intros W R. pose proof R as (R1 & R2 & R3 & R4). unfold getv. set (iq := ilistv p v). set (i2 := ilist p t).
  (* the array of pointers *)
  assert (ST1 : exists w1, (if Nat.leb (length (entries (listsv w v))) iq
         then match new_entry (vsize d v) iq (hp w) (listsv w v) with Ok (h, l) => Ok (set_listv w h v l) | Err e => Err e | UB => UB end
         else Ok w) = Ok w1 /\ winv d w1 /\ ext p w w1 /\ (iq < length (entries (listsv w1 v)))%nat).
  { assert (Hi : (iq <= length (entries (listsv w v)))%nat) by apply R4.
    destruct (Nat.leb_spec (length (entries (listsv w v))) iq) as [L|L].
    - assert (H : iq = length (entries (listsv w v))) by lia. unfold new_entry. rewrite H. cbn [malloc].
      pose proof (check_cap (length (entries (listsv w v))) _ (cap_nonnegv d w v W)) as [C1 C2].
      assert (WR := write_ok (next (hp w)) (check_bounds (length (entries (listsv w v))) (listsv w v))). rewrite check_entries in WR. rewrite WR by exact C1. clear WR.
      eexists. split; [reflexivity|]. split; [|split].
      + eapply listv_winv; [exact W | reflexivity | reflexivity|]. cbn [entries cap]. rewrite app_length. cbn [length]. lia.
      + apply set_listv_ext. intros. cbn. now apply app_nth.
      + cbn. rewrite vtype_eqb_refl. cbn. rewrite app_length. cbn [length]. lia.
    - exists w. split; [reflexivity|]. split; [exact W|]. split; [apply ext_refl | exact L]. }
  destruct ST1 as (w1 & -> & W1 & E1 & L1).
  assert (Q1 : prange w1 p) by (eapply prange_ext; [apply ple_refl | exact E1 | exact R]).
  (* the arrays *)
  assert (ST2 : exists w2, (if Z.of_nat (length (entries (lists w1 t))) <=? Z.of_nat i2 + Z.of_nat k - 1
             then match fill (asize d t) (i2 + k - length (entries (lists w1 t))) (hp w1) (check_bounds (i2 + k - 1) (lists w1 t)) with
                  | Ok (h, l) => Ok (set_list w1 h t l) | Err e => Err e | UB => UB end
             else Ok w1) = Ok w2 /\ winv d w2 /\ ext p w1 w2 /\ (iq < length (entries (listsv w2 v)))%nat /\ (i2 + k <= length (entries (lists w2 t)))%nat).
  { destruct (Z.leb_spec (Z.of_nat (length (entries (lists w1 t)))) (Z.of_nat i2 + Z.of_nat k - 1)) as [L|L].
    - pose proof (check_cap (i2 + k - 1) _ (cap_nonneg d w1 t W1)) as [C1 C2].
      destruct (fill_ok d t (i2 + k - length (entries (lists w1 t))) w1 (hp w1) (check_bounds (i2 + k - 1) (lists w1 t))) as (h & bs & -> & LB & W2).
      + eapply winv_same; [exact W1 | reflexivity | reflexivity | | intros; split; [reflexivity | cbn; lia]].
        intros t'. cbn. destruct (wtype_eqb t t') eqn:K; [apply wtype_eqb_eq in K; subst t'; rewrite check_entries; auto | split; [reflexivity | lia]].
      + rewrite check_entries. lia.
      + rewrite check_entries in W2 |- *. eexists. split; [reflexivity|]. split; [exact W2|]. split; [|split].
        * apply set_list_ext. intros. cbn. now apply app_nth.
        * exact L1.
        * cbn. rewrite wtype_eqb_refl. cbn. rewrite app_length. lia.
    - exists w1. split; [reflexivity|]. split; [exact W1|]. split; [apply ext_refl|]. split; [exact L1 | lia]. }
  destruct ST2 as (w2 & -> & W2 & E2 & L2 & L3).
  assert (E : ext p w w2) by (eapply ext_trans; [lia | apply ple_refl | exact E1 | exact E2]).
  assert (Q2 : prange w2 p) by (eapply prange_ext; [apply ple_refl | exact E | exact R]).
  destruct Q2 as (Q2a & Q2b & Q2c & Q2d).
  unfold entry. destruct (nth_error (entries (listsv w2 v)) iq) as [b|] eqn:N; [|apply nth_error_None in N; lia].
  destruct (take_ok (asize d t) k i2 _ L3) as (rs & T & F). rewrite T. eexists _, _, _. split; [reflexivity|].
  refine (conj W2 (conj _ (conj _ (conj E (conj _ (conj _ _)))))).
  - refine (conj Q2a (conj Q2b (conj _ _))); cbn.
    + intros t'. destruct (wtype_eqb t t') eqn:K; [apply wtype_eqb_eq in K; subst t'; exact L3 | apply Q2c].
    + intros v'. destruct (vtype_eqb v v') eqn:K; [apply vtype_eqb_eq in K; subst v'; fold iq; lia | apply Q2d].
  - refine (conj _ (conj _ _)); cbn; [lia | intros t0; destruct (wtype_eqb t t0); lia | intros v0; destruct (vtype_eqb v v0); lia].
  - constructor.
    + right. exists (LV v iq), b. cbn. rewrite vtype_eqb_refl. fold iq. refine (conj eq_refl (conj N (conj (conj _ eq_refl) (conj _ _)))); lia.
    + eapply Forall_impl; [|exact F]. intros r (j & c & J & Q & ->). right. exists (LL t j), c. cbn. rewrite wtype_eqb_refl. fold i2.
      refine (conj eq_refl (conj Q (conj (conj _ eq_refl) (conj _ _)))); lia.
  - constructor.
    + right. exists (LV v iq), b. cbn. fold iq. refine (conj eq_refl (conj N _)). lia.
    + eapply Forall_impl; [|exact F]. intros r (j & c & J & Q & ->). right. exists (LL t j), c. cbn. fold i2. refine (conj eq_refl (conj Q _)). lia.
  - constructor; [|eapply take_dis; eauto].
    eapply Forall_impl; [|exact F]. intros r (j & c & J & Q & ->) x y [[I1 _] [I2 _]]. cbn in I1, I2.
    assert (b = c) by congruence. subst c. pose proof (w_inj d w2 W2 (LV v iq) (LL t j) b N Q) as K. discriminate.
Qed.

(** * A computation *)
Definition older (f g : frame) : Prop := ple (fpos g) (fpos f) /\ exists rs, fregs f = rs ++ fregs g.
Definition sinv (d : dims) (s : wstate) : Prop :=
  winv d (sh s) /\ Forall (frame_ok d (sh s)) (top s :: callers s) /\ ForallOrdPairs older (top s :: callers s).
Definition wop_ok (c : wop) : Prop := match c with Page n => 0 <= n | _ => True end.
Lemma frame_ext d w w' p f : ple (fpos f) p -> ext p w w' -> frame_ok d w f -> frame_ok d w' f.
Proof.
  intros L E (R & P & D). refine (conj _ (conj _ D)); [eapply prange_ext; eauto|].
  eapply Forall_impl; [|exact P]. intros r. now apply placed_ext with (p := p).
Qed.
Lemma older_refl f : older f f.
Proof. split; [apply ple_refl | now exists []]. Qed.
Lemma older_trans f g h : older f g -> older g h -> older f h.
Proof. intros [A [r E]] [A' [r' E']]. split; [eapply ple_trans; eauto|]. exists (r ++ r'). rewrite E, E'. now rewrite app_assoc. Qed.
Lemma fop_app {A} (P : A -> A -> Prop) l m : ForallOrdPairs P l -> ForallOrdPairs P m -> (forall a b, In a l -> In b m -> P a b) -> ForallOrdPairs P (l ++ m).
Proof.
  induction l as [|x l IH]; intros L M H; [exact M|]. inversion L; subst. cbn. constructor.
  - apply Forall_app. split; [assumption|]. apply Forall_forall. intros b I. apply H; [now left | exact I].
  - apply IH; auto. intros a b I J. apply H; [now right | exact J].
Qed.
Lemma given_ok d s w' p' rs : sinv d s -> got d (sh s) (fpos (top s)) w' p' rs ->
  sinv d {| sh := w'; top := {| fpos := p'; fregs := rs ++ fregs (top s) |}; callers := callers s |}.
Proof.
  intros (W & F & O) (W' & R & L & E & P & N & D). inversion F as [|? ? F0 F1]; subst. inversion O as [|? ? O0 O1]; subst.
  assert (X : Forall (frame_ok d w') (top s :: callers s)).
  { constructor; [eapply frame_ext; [apply ple_refl | exact E | exact F0]|]. rewrite Forall_forall in *. intros f I.
    eapply frame_ext; [apply (O0 f I) | exact E | now apply F1]. }
  inversion X as [|? ? X0 X1]; subst. refine (conj W' (conj _ _)); cbn [top callers sh].
  - constructor; [|exact X1]. refine (conj R (conj _ _)); cbn [fpos fregs].
    + apply Forall_app. split; [exact P|]. eapply Forall_impl; [|exact (proj1 (proj2 X0))]. intros r. now apply placed_le.
    + apply fop_app; [exact D | exact (proj2 (proj2 X0))|]. intros a b I J. rewrite Forall_forall in N.
      eapply placed_new; [exact W' | | exact (N a I)]. destruct X0 as (_ & X0 & _). rewrite Forall_forall in X0. now apply X0.
  - constructor; [|exact O1]. rewrite Forall_forall in *. intros f I. apply older_trans with (g := top s); [|now apply O0].
    split; [exact L | cbn; now exists rs].
Qed.
Lemma wstep_ok d c s : 0 < min_page d -> wop_ok c -> sinv d s -> (exists n, c = Page n /\ wstep d c s = Err (-1)) \/ exists s', wstep d c s = Ok s' /\ sinv d s'.
Proof.
  intros Hm Hc S. pose proof S as (W & F & O). inversion F as [|? ? F0 F1]; subst. inversion O as [|? ? O0 O1]; subst. pose proof (proj1 F0) as R.
  destruct c as [n|t|v t k| |]; cbn [wstep].
  - destruct (get_page_ok d _ _ n W R Hm Hc) as [E|(w' & p' & rs & E & G)]; rewrite E; cbn [given]; [left; eauto|].
    right. eexists. split; [reflexivity | now apply given_ok].
  - right. destruct (get1_ok d _ _ t W R) as (w' & p' & rs & E & G). rewrite E. cbn [given]. eexists. split; [reflexivity | now apply given_ok].
  - right. destruct (getv_ok d _ _ v t k W R) as (w' & p' & rs & E & G). rewrite E. cbn [given]. eexists. split; [reflexivity | now apply given_ok].
  - right. eexists. split; [reflexivity|]. refine (conj W (conj _ _)); cbn [top callers sh].
    + constructor; assumption.
    + constructor; [|exact O]. constructor; [apply older_refl | exact O0].
  - right. destruct (callers s) as [|f fs] eqn:C.
    + exists s. auto.
    + eexists. split; [reflexivity|]. refine (conj W (conj _ _)); cbn [top callers sh]; assumption.
Qed.
Lemma wsteps_ok d cs : 0 < min_page d -> Forall wop_ok cs -> forall s, sinv d s -> wsteps d cs s = Err (-1) \/ exists s', wsteps d cs s = Ok s' /\ sinv d s'.
Proof.
  intros Hm. induction 1 as [|c cs Hc Hcs IH]; intros s S; [right; exists s; auto|]. cbn [wsteps].
  destruct (wstep_ok d c s Hm Hc S) as [(n & -> & E)|(s' & E & S')]; rewrite E; [now left | now apply IH].
Qed.
Lemma start_sinv d : sinv d start.
Proof.
  refine (conj (init_winv d) (conj _ _)); cbn.
  - constructor; [|constructor]. refine (conj _ (conj _ _)); cbn; [|constructor|constructor].
    refine (conj (conj _ eq_refl) (conj _ (conj _ _))); cbn; try (intros; lia). unfold pow, WORK_MAX_PAGES. lia.
  - constructor; constructor.
Qed.

(** * The same requests again *)
Definition same (r r' : region) : Prop := rlen r' = rlen r /\ (0 < rlen r -> r' = r).
Lemma page_again d w p n w' p' rs wf : winv d w -> prange w p -> 0 < min_page d -> 0 <= n ->
  get_page d w p n = Ok (w', p', rs) -> ext p' w' wf -> exists rs', get_page d wf p n = Ok (wf, p', rs') /\ Forall2 same rs rs'.
Proof.
  intros W ((R1 & R0) & R2 & R3 & R4) Hm Hn. unfold get_page, get_common. destruct (round_ge n Hn) as (G1 & G2 & G3 & G4 & G5).
  set (len := round n) in *. clearbody len.
  assert (ONE : forall q i k, (0 < n -> pages wf i = q) -> Forall2 same [{| rblock := pblock q; roff := k; rlen := n |}] [{| rblock := pblock (pages wf i); roff := k; rlen := n |}]).
  { intros q i k H. constructor; [|constructor]. split; [reflexivity|]. cbn. intros K. now rewrite (H K). }
  (* the array fits in the page at p *)
  assert (FIT : forall k, ibyte p = k -> k + len <= pbytes (pages wf (ipage p)) -> 0 < pbytes (pages wf (ipage p)) ->
     (if (ibyte p =? 0) && (pbytes (pages wf (ipage p)) =? 0) then let (h, b) := malloc (Z.max (min_page d) len) (hp wf) in
        Ok (set_page wf h (ipage p) {| pbytes := Z.max (min_page d) len; pblock := Some b |}, move p (ipage p) len, 0)
      else if (ibyte p =? 0) && (pbytes (pages wf (ipage p)) <? len) then
        match renew d wf (ipage p) len with Ok w => Ok (w, move p (ipage p) len, 0) | Err e => Err e | UB => UB end
      else if pbytes (pages wf (ipage p)) <? ibyte p + len then
        if WORK_MAX_PAGES <=? ipage p + 1 then Err (-1)
        else if pbytes (pages wf (ipage p + 1)) <? len then
          match renew d wf (ipage p + 1) len with Ok w => Ok (w, move p (ipage p + 1) len, 0) | Err e => Err e | UB => UB end
        else Ok (wf, move p (ipage p + 1) len, 0)
      else Ok (wf, move p (ipage p) (ibyte p + len), ibyte p)) = Ok (wf, move p (ipage p) (k + len), k)).
  { intros k K H1 H2. assert (E1 : (pbytes (pages wf (ipage p)) =? 0) = false) by (apply Z.eqb_neq; lia). rewrite E1, andb_false_r.
    assert (E2 : (ibyte p =? 0) && (pbytes (pages wf (ipage p)) <? len) = false) by (apply andb_false_iff; right; apply Z.ltb_ge; lia).
    rewrite E2. assert (E3 : (pbytes (pages wf (ipage p)) <? ibyte p + len) = false) by (apply Z.ltb_ge; lia). rewrite E3, K. reflexivity. }
  intros H (X1 & X2 & X3 & X4).
  destruct ((ibyte p =? 0) && (pbytes (pages w (ipage p)) =? 0)) eqn:B1.
  - apply andb_prop in B1. destruct B1 as [Z0 Z1]. apply Z.eqb_eq in Z0, Z1. cbn [malloc] in H. injection H as <- <- <-.
    cbn [ipage ibyte move] in *. cbn in X2. rewrite Z.eqb_refl in X2. cbn in X2.
    rewrite (FIT 0) by lia. eexists. split; [reflexivity|]. cbn [ipage move]. apply ONE. intros K. apply X1. lia.
  - destruct ((ibyte p =? 0) && (pbytes (pages w (ipage p)) <? len)) eqn:B2.
    + apply andb_prop in B2. destruct B2 as [Z0 Z1]. apply Z.eqb_eq in Z0. apply Z.ltb_lt in Z1.
      destruct (renew_ok d w (ipage p) len W R1 Hm) as (w1 & E & W' & EP & EL & EV & EB). rewrite E in H. injection H as <- <- <-.
      cbn [ipage ibyte move] in *. rewrite (FIT 0) by lia. eexists. split; [reflexivity|]. cbn [ipage move]. apply ONE. intros K. apply X1. lia.
    + destruct (pbytes (pages w (ipage p)) <? ibyte p + len) eqn:B3.
      * apply Z.ltb_lt in B3. destruct (WORK_MAX_PAGES <=? ipage p + 1) eqn:B4; [discriminate|].
        assert (ib : 0 < ibyte p).
        { destruct (Z.eqb_spec (ibyte p) 0) as [Q|Q]; [|lia]. cbn [andb] in B2. apply Z.ltb_ge in B2. lia. }
        assert (LEN : 0 < len) by lia.
        assert (Q : ipage p' = ipage p + 1 /\ ibyte p' = len /\ p' = move p (ipage p + 1) len /\ len <= pbytes (pages w' (ipage p + 1)) /\
                    pages w' (ipage p) = pages w (ipage p) /\ rs = [{| rblock := pblock (pages w' (ipage p + 1)); roff := 0; rlen := n |}]).
        { destruct (pbytes (pages w (ipage p + 1)) <? len) eqn:B5.
          - destruct (renew_ok d w (ipage p + 1) len W ltac:(apply Z.leb_gt in B4; unfold pow in *; lia) Hm) as (w1 & E & W' & EP & EL & EV & EB).
            rewrite E in H. injection H as <- <- <-. cbn. repeat split; try lia. apply EP. lia.
          - apply Z.ltb_ge in B5. injection H as <- <- <-. cbn. repeat split; lia. }
        destruct Q as (Q1 & Q2 & Q3 & Q4 & Q5 & ->). rewrite Q1, Q2 in *.
        assert (P0 : pages wf (ipage p) = pages w (ipage p)) by (rewrite <- Q5; apply X1; lia).
        assert (P1 : pages wf (ipage p + 1) = pages w' (ipage p + 1)) by (apply X1; lia).
        rewrite P0, B1, B2. apply Z.ltb_lt in B3. rewrite B3. rewrite P1. assert (B5 : (pbytes (pages w' (ipage p + 1)) <? len) = false) by (apply Z.ltb_ge; lia).
        rewrite B5, Q3. eexists. split; [reflexivity|]. cbn [ipage move]. apply ONE. intros _. exact P1.
      * apply Z.ltb_ge in B3. injection H as <- <- <-. cbn [ipage ibyte move] in *.
        assert (0 < pbytes (pages wf (ipage p))).
        { pose proof (w_pos d w W (ipage p)). destruct (Z.eqb_spec (pbytes (pages w (ipage p))) 0) as [Q|Q]; [|lia].
          rewrite Q in *. destruct (Z.eqb_spec (ibyte p) 0); [discriminate | lia]. }
        rewrite (FIT (ibyte p)) by lia. eexists. split; [reflexivity|]. cbn [ipage move]. apply ONE. intros K. apply X1. lia.
Qed.
Lemma same_refl rs : Forall2 same rs rs.
Proof. induction rs; constructor; [split; auto | exact IHrs]. Qed.
Lemma nth_lt {A} (l : list A) i b : nth_error l i = Some b -> Nat.leb (length l) i = false.
Proof. intros N. apply Nat.leb_gt. apply nth_error_Some. congruence. Qed.
Lemma get1_again d w p t w' p' rs wf : get1 d w p t = Ok (w', p', rs) -> ext p' w' wf -> get1 d wf p t = Ok (wf, p', rs).
Proof.
  intros H (X1 & X2 & X3 & X4). unfold get1, entry in *.
  destruct (if Nat.leb (length (entries (lists w t))) (ilist p t) then _ else _) as [w1| |]; try discriminate.
  destruct (nth_error (entries (lists w1 t)) (ilist p t)) as [b|] eqn:N; [|discriminate]. injection H as <- <- <-.
  apply X3 in N. now rewrite (nth_lt _ _ _ N), N.
Qed.
Lemma take_mono size k : forall i l l' rs, (forall j b, nth_error (entries l) j = Some b -> nth_error (entries l') j = Some b) ->
  take size k i l = Ok rs -> take size k i l' = Ok rs /\ ((0 < k)%nat -> (i + k <= length (entries l'))%nat).
Proof.
  induction k as [|k IH]; intros i l l' rs M; cbn [take]; [intros H; split; [exact H | lia]|]. unfold entry.
  destruct (nth_error (entries l) i) as [b|] eqn:N; [|discriminate]. apply M in N. rewrite N.
  destruct (take size k (S i) l) as [rs'| |] eqn:T; try discriminate. intros H. injection H as <-.
  destruct (IH _ _ _ _ M T) as [-> Q]. split; [reflexivity|]. intros _. destruct k; [|lia].
  assert (J : nth_error (entries l') i <> None) by congruence. apply nth_error_Some in J. lia.
Qed.
Lemma getv_again d w p v t k w' p' rs wf : prange wf p -> getv d w p v t k = Ok (w', p', rs) -> ext p' w' wf -> getv d wf p v t k = Ok (wf, p', rs).
Proof.
  intros (_ & _ & R3 & _) H (X1 & X2 & X3 & X4). unfold getv, entry in *.
  destruct (if Nat.leb (length (entries (listsv w v))) (ilistv p v) then _ else _) as [w1| |]; try discriminate.
  destruct (if Z.of_nat (length (entries (lists w1 t))) <=? _ then _ else _) as [w2| |]; try discriminate.
  destruct (nth_error (entries (listsv w2 v)) (ilistv p v)) as [b|] eqn:N; [|discriminate].
  destruct (take (asize d t) k (ilist p t) (lists w2 t)) as [rs'| |] eqn:T; try discriminate. injection H as <- <- <-.
  apply X4 in N. rewrite (nth_lt _ _ _ N). destruct (take_mono _ _ _ _ _ _ (X3 t) T) as [T' L].
  destruct (Z.leb_spec (Z.of_nat (length (entries (lists wf t)))) (Z.of_nat (ilist p t) + Z.of_nat k - 1)) as [Q|Q].
  - exfalso. specialize (R3 t). destruct k; [lia | specialize (L ltac:(lia)); lia].
  - rewrite N, T'. reflexivity.
Qed.
(** A request, not a call or a return *)
Definition request (c : wop) : Prop := match c with Call | Return => False | _ => True end.
Definition sits (w : shared) (s : wstate) : wstate := {| sh := w; top := top s; callers := callers s |}.
Lemma wsteps_sinv d cs s s' : 0 < min_page d -> Forall wop_ok cs -> sinv d s -> wsteps d cs s = Ok s' -> sinv d s'.
Proof. intros Hm Hc S E. destruct (wsteps_ok d cs Hm Hc s S) as [E'|(s1 & E' & S')]; rewrite E in E'; [discriminate | injection E' as ->; exact S']. Qed.
Lemma step_got d c s s' : 0 < min_page d -> wop_ok c -> request c -> sinv d s -> wstep d c s = Ok s' ->
  exists w' p' rs, got d (sh s) (fpos (top s)) w' p' rs /\ s' = {| sh := w'; top := {| fpos := p'; fregs := rs ++ fregs (top s) |}; callers := callers s |} /\
  (forall wf, prange wf (fpos (top s)) -> ext p' w' wf -> forall f, fpos f = fpos (top s) -> forall fs, exists rs', Forall2 same rs rs' /\
     wstep d c {| sh := wf; top := f; callers := fs |} = Ok {| sh := wf; top := {| fpos := p'; fregs := rs' ++ fregs f |}; callers := fs |}).
Proof.
  intros Hm Hc Hr S. pose proof S as (W & F & O). inversion F as [|? ? F0 F1]; subst. pose proof (proj1 F0) as R.
  destruct c as [n|t|v t k| |]; cbn [wstep]; try contradiction.
  - destruct (get_page_ok d _ _ n W R Hm Hc) as [E|(w' & p' & rs & E & G)]; rewrite E; cbn [given]; [discriminate|]. intros H. injection H as <-.
    exists w', p', rs. split; [exact G|]. split; [reflexivity|]. intros wf Q X f Ef fs. cbn [sh top callers]. rewrite Ef.
    destruct (page_again d _ _ _ _ _ _ wf W R Hm Hc E X) as (rs' & -> & K). now exists rs'.
  - destruct (get1_ok d _ _ t W R) as (w' & p' & rs & E & G). rewrite E. cbn [given]. intros H. injection H as <-.
    exists w', p', rs. split; [exact G|]. split; [reflexivity|]. intros wf Q X f Ef fs. cbn [sh top callers]. rewrite Ef.
    rewrite (get1_again d _ _ _ _ _ _ wf E X). exists rs. split; [apply same_refl | reflexivity].
  - destruct (getv_ok d _ _ v t k W R) as (w' & p' & rs & E & G). rewrite E. cbn [given]. intros H. injection H as <-.
    exists w', p', rs. split; [exact G|]. split; [reflexivity|]. intros wf Q X f Ef fs. cbn [sh top callers]. rewrite Ef.
    rewrite (getv_again d _ _ _ _ _ _ _ _ wf Q E X). exists rs. split; [apply same_refl | reflexivity].
Qed.
Lemma run_ext d cs : 0 < min_page d -> Forall wop_ok cs -> Forall request cs -> forall s s', sinv d s -> wsteps d cs s = Ok s' ->
  ext (fpos (top s)) (sh s) (sh s') /\ ple (fpos (top s)) (fpos (top s')).
Proof.
  intros Hm. induction cs as [|c cs IH]; intros Hc Hr s s' S; cbn [wsteps].
  - intros H. injection H as <-. split; [apply ext_refl | apply ple_refl].
  - inversion Hc; inversion Hr; subst. destruct (wstep d c s) as [s1| |] eqn:E; try discriminate. intros H.
    destruct (step_got d c s s1 Hm ltac:(assumption) ltac:(assumption) S E) as (w' & p' & rs & G & Es & _).
    assert (S1 : sinv d s1) by (rewrite Es; now apply given_ok). destruct (IH ltac:(assumption) ltac:(assumption) s1 s' S1 H) as [A B].
    destruct G as (_ & _ & L & X & _). rewrite Es in A, B. cbn in A, B. split; [|eapply ple_trans; eauto].
    eapply ext_trans; [| exact L | exact X | exact A]. destruct S as (_ & S & _). inversion S as [|? ? S0 ?]; subst. destruct S0 as ((_ & Q & _) & _). lia.
Qed.
Lemma run_again d cs : 0 < min_page d -> Forall wop_ok cs -> Forall request cs -> forall s s', sinv d s -> wsteps d cs s = Ok s' ->
  forall f fs rs0, fpos f = fpos (top s) -> Forall2 same rs0 (fregs f) -> forall wf, ext (fpos (top s')) (sh s') wf -> exists f' rs1, wsteps d cs {| sh := wf; top := f; callers := fs |} = Ok {| sh := wf; top := f'; callers := fs |} /\
     fpos f' = fpos (top s') /\ fregs (top s') = rs1 ++ fregs (top s) /\ Forall2 same (rs1 ++ rs0) (fregs f').
Proof.
  intros Hm. induction cs as [|c cs IH]; intros Hc Hr s s' S; cbn [wsteps].
  - intros H. injection H as <-. intros f fs rs0 Ef Q wf X. exists f, []. auto.
  - inversion Hc; inversion Hr; subst. destruct (wstep d c s) as [s1| |] eqn:E; try discriminate. intros H f fs rs0 Ef Q wf X.
    destruct (step_got d c s s1 Hm ltac:(assumption) ltac:(assumption) S E) as (w' & p' & rs & G & Es & AG).
    assert (S1 : sinv d s1) by (rewrite Es; now apply given_ok).
    destruct (run_ext d cs Hm ltac:(assumption) ltac:(assumption) s1 s' S1 H) as [A B]. rewrite Es in A, B. cbn in A, B.
    pose proof G as (_ & R' & L & X0 & _).
    assert (X1 : ext p' w' wf) by (eapply ext_trans; [| exact B | exact A | exact X]; destruct R' as (_ & Q' & _); lia).
    assert (R0 : prange (sh s) (fpos (top s))) by (destruct S as (_ & S & _); inversion S as [|? ? S0 ?]; subst; exact (proj1 S0)).
    assert (X2 : ext (fpos (top s)) (sh s) wf) by (eapply ext_trans; [| exact L | exact X0 | exact X1]; destruct R0 as (_ & Q' & _); lia).
    destruct (AG wf (prange_ext _ _ _ _ (ple_refl _) X2 R0) X1 f Ef fs) as (rs' & K & ->).
    destruct (IH ltac:(assumption) ltac:(assumption) s1 s' S1 H {| fpos := p'; fregs := rs' ++ fregs f |} fs (rs ++ rs0)) with (wf := wf) as (f' & rs1 & E1 & E2 & E3 & E4).
    + rewrite Es. reflexivity.
    + cbn. now apply Forall2_app.
    + exact X.
    + exists f', (rs1 ++ rs). refine (conj E1 (conj E2 (conj _ _))).
      * rewrite E3, Es. cbn. now rewrite app_assoc.
      * now rewrite <- app_assoc.
Qed.
