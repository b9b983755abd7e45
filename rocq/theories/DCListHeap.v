(** The heap operations of the linked list, on rings.  Proof support for C34. *)
From Coq Require Import List Bool Arith Lia Permutation.
From Verif Require Import DCListModel DCListSpec DCListProofs.
Import ListNotations.

Section Heap.
Variable V : Type.
Notation st := (st V).

Definition nx (s : st) (p : nat) : option nat := match heap s p with Some c => next c | None => None end.
Definition pv (s : st) (p : nat) : option nat := match heap s p with Some c => prev c | None => None end.
Definition vl (s : st) (p : nat) : option V := match heap s p with Some c => Some (val c) | None => None end.
Definition ring (s : st) (l : list nat) : Prop := forall x y, In (x, y) (circ l) -> nx s x = Some y /\ pv s y = Some x.
(** Nothing but links changed. *)
Definition kept (s s' : st) : Prop := (forall p, vl s' p = vl s p) /\ brk s' = brk s /\ freed s' = freed s.

Lemma kept_refl s : kept s s. Proof. repeat split. Qed.
Lemma kept_trans s1 s2 s3 : kept s1 s2 -> kept s2 s3 -> kept s1 s3.
Proof. intros (A & B & C) (D & E & F). split; [intro; now rewrite D, A|]. split; congruence. Qed.

Lemma rnext_ok s p q : nx s p = Some q -> rnext p s = Val q s.
Proof. unfold nx, rnext, bind, rdc. destruct (heap s p) as [c|]; [|discriminate]. intros ->. reflexivity. Qed.
Lemma rprev_ok s p q : pv s p = Some q -> rprev p s = Val q s.
Proof. unfold pv, rprev, bind, rdc. destruct (heap s p) as [c|]; [|discriminate]. intros ->. reflexivity. Qed.
Lemma rval_ok s p v : vl s p = Some v -> rval p s = Val v s.
Proof. unfold vl, rval, bind, rdc. destruct (heap s p) as [c|]; [|discriminate]. intro H. injection H as ->. reflexivity. Qed.

Lemma wnext_ok s p q : vl s p <> None -> exists s', wnext p q s = Val tt s' /\ kept s s' /\ first s' = first s /\
  (forall r, nx s' r = if r =? p then Some q else nx s r) /\ (forall r, pv s' r = pv s r).
Proof.
  unfold vl, wnext, bind, rdc, wrc. intro H. destruct (heap s p) as [c|] eqn:E; [|easy]. rewrite E.
  eexists. split; [reflexivity|]. unfold kept, vl, nx, pv, put. cbn.
  repeat split; intro r; destruct (Nat.eqb_spec r p) as [->|]; rewrite ?E; reflexivity.
Qed.
Lemma wprev_ok s p q : vl s p <> None -> exists s', wprev p q s = Val tt s' /\ kept s s' /\ first s' = first s /\
  (forall r, pv s' r = if r =? p then Some q else pv s r) /\ (forall r, nx s' r = nx s r).
Proof.
  unfold vl, wprev, bind, rdc, wrc. intro H. destruct (heap s p) as [c|] eqn:E; [|easy]. rewrite E.
  eexists. split; [reflexivity|]. unfold kept, vl, nx, pv, put. cbn.
  repeat split; intro r; destruct (Nat.eqb_spec r p) as [->|]; rewrite ?E; reflexivity.
Qed.
Lemma set_first_ok (s : st) f : exists s', set_first f s = Val tt s' /\ kept s s' /\ first s' = f /\
  (forall r, nx s' r = nx s r) /\ (forall r, pv s' r = pv s r).
Proof. eexists. split; [reflexivity|]. repeat split. Qed.

(** Runs of a bind. *)
Lemma run {A B} (m : M V A) (k : A -> M V B) s a s' : m s = Val a s' -> bind m k s = k a s'.
Proof. intro H. unfold bind. now rewrite H. Qed.

Lemma ring_links s s' l : (forall r, nx s' r = nx s r) -> (forall r, pv s' r = pv s r) -> ring s l -> ring s' l.
Proof. intros N P R x y H. rewrite N, P. auto. Qed.
Lemma ring_rot s l1 l2 : ring s (l1 ++ l2) -> ring s (l2 ++ l1).
Proof. intros R x y H. apply R. now apply circ_rot. Qed.

(** 374-387 on a list that is not empty. *)
Lemma add_ok s l1 p l2 e f : ring s (l1 ++ p :: l2) -> NoDup (e :: l1 ++ p :: l2) -> first s = Some f ->
  (forall q, In q (e :: l1 ++ p :: l2) -> vl s q <> None) ->
  exists s', add (Some p) e s = Val tt s' /\ kept s s' /\ first s' = first s /\ ring s' (l1 ++ p :: e :: l2).
Proof.
  intros R ND F D.
  (* the ring with the position last *)
  assert (R1 : ring s ((l2 ++ l1) ++ [p])).
  { rewrite <- app_assoc. apply (ring_rot s (l1 ++ [p]) l2). now rewrite <- app_assoc. }
  assert (NDr : NoDup (e :: (l2 ++ l1) ++ [p])).
  { apply (Permutation_NoDup (l := e :: l1 ++ p :: l2)); [|exact ND]. constructor.
    transitivity ((l1 ++ [p]) ++ l2); [now rewrite <- app_assoc|]. rewrite <- (app_assoc l2 l1 [p]). apply Permutation_app_comm. }
  assert (Dr : forall q, In q (e :: (l2 ++ l1) ++ [p]) -> vl s q <> None).
  { intros q Hq. apply D. cbn in *. rewrite !in_app_iff in *. cbn in *. tauto. }
  enough (G : exists s', add (Some p) e s = Val tt s' /\ kept s s' /\ first s' = first s /\ ring s' ((l2 ++ l1) ++ [p; e])).
  { destruct G as (s' & E & K & F' & G). exists s'. split; [exact E|]. split; [exact K|]. split; [exact F'|].
    replace (l1 ++ p :: e :: l2) with ((l1 ++ [p; e]) ++ l2) by now rewrite <- app_assoc.
    apply ring_rot. rewrite app_assoc. exact G. }
  clear R ND D. revert R1 NDr Dr. generalize (l2 ++ l1). clear l1 l2. intros l R ND D.
  inversion ND as [|? ? NE ND']; subst.
  assert (Dp : vl s p <> None) by (apply D; right; apply in_or_app; right; now left).
  assert (De : vl s e <> None) by (apply D; now left).
  assert (NEp : p <> e) by (intros ->; apply NE, in_or_app; right; now left).
  set (x := hd p l).
  assert (Hx : In x (l ++ [p])) by (unfold x; destruct l; [now left|now left]).
  assert (NEx : x <> e) by (intros E; apply NE; now rewrite <- E).
  assert (L : nx s p = Some x /\ pv s x = Some p).
  { apply R. rewrite circ_last. unfold x. destruct l; [now left|]. apply in_or_app. right. now left. }
  destruct L as (N0 & P0).
  assert (Dx : vl s x <> None) by (apply D; now right).
  unfold add. rewrite (run _ _ s (Some f) s) by (unfold get_first; now rewrite F). cbn [deref].
  rewrite (run (ret p) _ s p s) by reflexivity.
  destruct (wprev_ok s e p De) as (s1 & E1 & K1 & F1 & P1 & N1). rewrite (run _ _ _ _ _ E1).
  assert (A1 : nx s1 p = Some x) by (now rewrite N1). rewrite (run _ _ _ _ _ (rnext_ok _ _ _ A1)).
  assert (D1 : forall q, vl s1 q = vl s q) by (apply K1).
  destruct (wnext_ok s1 e x) as (s2 & E2 & K2 & F2 & N2 & P2); [now rewrite D1|]. rewrite (run _ _ _ _ _ E2).
  assert (D2 : forall q, vl s2 q = vl s q) by (intro; rewrite (proj1 K2); auto).
  assert (A2 : pv s2 e = Some p) by (rewrite P2, P1, Nat.eqb_refl; reflexivity). rewrite (run _ _ _ _ _ (rprev_ok _ _ _ A2)).
  destruct (wnext_ok s2 p e) as (s3 & E3 & K3 & F3 & N3 & P3); [now rewrite D2|]. rewrite (run _ _ _ _ _ E3).
  assert (D3 : forall q, vl s3 q = vl s q) by (intro; rewrite (proj1 K3); auto).
  assert (A3 : nx s3 e = Some x).
  { rewrite N3. destruct (Nat.eqb_spec e p); [congruence|]. rewrite N2, Nat.eqb_refl. reflexivity. }
  rewrite (run _ _ _ _ _ (rnext_ok _ _ _ A3)).
  destruct (wprev_ok s3 x e) as (s4 & E4 & K4 & F4 & P4 & N4); [now rewrite D3|].
  exists s4. split; [exact E4|]. split; [|split].
  - apply (kept_trans _ s1), (kept_trans _ s2), (kept_trans _ s3); auto.
  - congruence.
  - assert (NX : forall r, nx s4 r = if r =? p then Some e else if r =? e then Some x else nx s r).
    { intro r. rewrite N4, N3, N2, N1. reflexivity. }
    assert (PV : forall r, pv s4 r = if r =? x then Some e else if r =? e then Some p else pv s r).
    { intro r. rewrite P4, P3, P2, P1. reflexivity. }
    intros a b H. replace (l ++ [p; e]) with ((l ++ [p]) ++ [e]) in H by now rewrite <- app_assoc.
    rewrite circ_last in H.
    assert (C : (exists z r, l ++ [p] = z :: r /\ z = x)) by (unfold x; destruct l as [|z r]; [exists p, []|exists z, (r ++ [p])]; auto).
    destruct C as (z & r & C & ->). rewrite C in H. apply in_app_or in H as [H|[H|[]]].
    + rewrite <- C in H. rewrite <- app_assoc in H. cbn [app] in H. rewrite consec_app in H. apply in_app_or in H as [H|[H|[]]].
      * assert (Ha : In a l) by now apply consec_fst in H.
        assert (a <> p).
        { intros ->. apply NoDup_remove_2 in ND'. rewrite app_nil_r in ND'. auto. }
        assert (a <> e) by (intros ->; apply NE, in_or_app; now left).
        assert (Hb : In b r) by (rewrite C in H; now apply consec_snd in H).
        assert (b <> x). { intros ->. rewrite C in ND'. now inversion ND'. }
        assert (b <> e). { intros ->. apply NE. rewrite C. now right. }
        assert (LK : nx s a = Some b /\ pv s b = Some a).
        { apply R. rewrite circ_last. destruct l; [contradiction|]. apply in_or_app. now left. }
        rewrite NX, PV. repeat (match goal with |- context [?u =? ?w] => destruct (Nat.eqb_spec u w); [congruence|] end). exact LK.
      * injection H as <- <-. rewrite NX, PV. rewrite !Nat.eqb_refl.
        destruct (Nat.eqb_spec e x); [congruence|]. auto.
    + injection H as <- <-. rewrite NX, PV. rewrite !Nat.eqb_refl.
      destruct (Nat.eqb_spec e p); [congruence|]. auto.
Qed.

Lemma add_empty_ok s pos e : first s = None -> vl s e <> None ->
  exists s', add pos e s = Val tt s' /\ kept s s' /\ first s' = Some e /\ ring s' [e].
Proof.
  intros F D. unfold add. rewrite (run _ _ s None s) by (unfold get_first; now rewrite F).
  destruct (set_first_ok s (Some e)) as (s1 & E1 & K1 & F1 & N1 & P1). rewrite (run _ _ _ _ _ E1).
  destruct (wprev_ok s1 e e) as (s2 & E2 & K2 & F2 & P2 & N2); [now rewrite (proj1 K1)|]. rewrite (run _ _ _ _ _ E2).
  destruct (wnext_ok s2 e e) as (s3 & E3 & K3 & F3 & N3 & P3); [now rewrite (proj1 K2), (proj1 K1)|].
  exists s3. split; [exact E3|]. split; [apply (kept_trans _ s1), (kept_trans _ s2); auto|]. split; [congruence|].
  intros a b [H|[]]. injection H as <- <-. rewrite N3, P3, P2, Nat.eqb_refl. auto.
Qed.

(** 555-568 *)
Lemma remove_ok s l1 p l2 : ring s (l1 ++ p :: l2) -> NoDup (l1 ++ p :: l2) -> first s = hd_error (l1 ++ p :: l2) ->
  (forall q, In q (l1 ++ p :: l2) -> vl s q <> None) ->
  exists s', remove_node p s = Val p s' /\ kept s s' /\ first s' = hd_error (l1 ++ l2) /\ ring s' (l1 ++ l2).
Proof.
  intros R ND F D.
  assert (R1 : ring s (p :: l2 ++ l1)) by exact (ring_rot s l1 (p :: l2) R).
  assert (NDr : NoDup (p :: l2 ++ l1)).
  { apply (Permutation_NoDup (l := l1 ++ p :: l2)); [|exact ND]. exact (Permutation_app_comm l1 (p :: l2)). }
  assert (Dr : forall q, In q (p :: l2 ++ l1) -> vl s q <> None).
  { intros q Hq. apply D. cbn in *. rewrite !in_app_iff in *. cbn in *. tauto. }
  destruct (l2 ++ l1) as [|x r] eqn:EL.
  - apply app_eq_nil in EL as [-> ->]. cbn in *.
    assert (A : nx s p = Some p) by (apply R; now left).
    unfold remove_node. rewrite (run _ _ _ _ _ (rnext_ok _ _ _ A)). rewrite Nat.eqb_refl.
    destruct (set_first_ok s None) as (s1 & E1 & K1 & F1 & N1 & P1). rewrite (run _ _ _ _ _ E1).
    exists s1. split; [reflexivity|]. split; [exact K1|]. split; [exact F1|]. intros a b [].
  - assert (EX : exists l q, x :: r = l ++ [q]) by (destruct (exists_last (l := x :: r)) as (l & q & E); [discriminate|]; eauto).
    destruct EX as (l & q & EQ).
    inversion NDr as [|? ? NI ND']; subst.
    assert (A : nx s p = Some x /\ pv s x = Some p) by (apply R1; now left).
    assert (B : nx s q = Some p /\ pv s p = Some q).
    { apply R1. unfold circ. replace ((p :: x :: r) ++ [p]) with ((p :: l) ++ q :: [p]) by (rewrite EQ; cbn; now rewrite <- app_assoc).
      rewrite consec_app. apply in_or_app. right. now left. }
    destruct A as (N0 & P0), B as (NQ & PQ).
    assert (NE1 : p <> x) by (intros ->; apply NI; now left).
    assert (Hq : In q (x :: r)) by (rewrite EQ; apply in_or_app; right; now left).
    assert (NE2 : p <> q) by (intros ->; auto).
    assert (Fs : exists f, first s = Some f) by (rewrite F; destruct l1; cbn; eauto). destruct Fs as (f & Fs).
    unfold remove_node. rewrite (run _ _ _ _ _ (rnext_ok _ _ _ N0)).
    destruct (Nat.eqb_spec p x); [congruence|].
    (* the head of the list *)
    assert (S1 : exists s1, bind (is_first p) (fun b => (if b then set_first (Some x) else ret tt)) s = Val tt s1 /\ kept s s1 /\
       first s1 = hd_error (l1 ++ l2) /\ (forall r0, nx s1 r0 = nx s r0) /\ (forall r0, pv s1 r0 = pv s r0)).
    { unfold is_first, bind, get_first, ret. rewrite Fs. destruct (Nat.eqb_spec p f) as [->|NF].
      - assert (l1 = []) as ->.
        { rewrite F in Fs. destruct l1 as [|z l1]; auto. cbn in Fs. injection Fs as ->. cbn in ND. inversion ND as [|? ? NI2 _]; subst.
          exfalso. apply NI2, in_or_app. right. now left. }
        destruct (set_first_ok s (Some x)) as (s1 & E1 & K1 & F1 & N1 & P1). exists s1. split; [exact E1|]. split; [exact K1|].
        rewrite app_nil_r in EL. cbn. rewrite EL. cbn. auto.
      - exists s. split; [reflexivity|]. split; [apply kept_refl|]. split; [|auto].
        rewrite F in Fs. rewrite F. destruct l1 as [|z l1]; cbn in *; [congruence|auto]. }
    destruct S1 as (s1 & E1 & K1 & F1 & N1 & P1).
    assert (D1 : forall z, vl s1 z = vl s z) by (apply K1).
    destruct (wnext_ok s1 q x) as (s2 & E2 & K2 & F2 & N2 & P2); [rewrite D1; apply Dr; now right|].
    assert (D2 : forall z, vl s2 z = vl s z) by (intro; rewrite (proj1 K2); auto).
    destruct (wprev_ok s2 x q) as (s3 & E3 & K3 & F3 & P3 & N3); [rewrite D2; apply Dr; right; now left|].
    assert (E : bind (is_first p) (fun b => bind (if b then set_first (Some x) else ret tt) (fun _ =>
        bind (rprev p) (fun p0 => bind (rnext p) (fun nx1 => bind (wnext p0 nx1) (fun _ =>
        bind (rnext p) (fun nx2 => bind (rprev p) (fun p2 => wprev nx2 p2))))))) s = Val tt s3).
    { unfold is_first, bind, get_first, ret in E1. unfold is_first. 
      rewrite (run _ _ s match first s with Some q0 => p =? q0 | None => false end s)
        by (unfold bind, get_first, ret; reflexivity).
      rewrite (run _ _ s tt s1) by exact E1.
      rewrite (run _ _ _ _ _ (rprev_ok s1 p q ltac:(now rewrite P1))).
      rewrite (run _ _ _ _ _ (rnext_ok s1 p x ltac:(now rewrite N1))).
      rewrite (run _ _ _ _ _ E2).
      rewrite (run _ _ _ _ _ (rnext_ok s2 p x ltac:(rewrite N2; destruct (Nat.eqb_spec p q); [congruence|now rewrite N1]))).
      rewrite (run _ _ _ _ _ (rprev_ok s2 p q ltac:(rewrite P2, P1; exact PQ))). exact E3. }
    rewrite (run _ _ _ _ _ E). exists s3. split; [reflexivity|].
    split; [apply (kept_trans _ s1), (kept_trans _ s2); auto|]. split; [congruence|].
    apply ring_rot. rewrite EL.
    intros a b H. rewrite EQ in H. rewrite circ_last in H.
    assert (G : (In (a, b) (consec (l ++ [q])) \/ (a, b) = (q, x))).
    { destruct l as [|z l]; [cbn in EQ; injection EQ as -> ->; destruct H as [H|[]]; auto|].
      cbn in EQ. injection EQ as -> EQ. apply in_app_or in H as [H|[H|[]]]; auto. }
    rewrite N3, N2, P3, P2, N1, P1. destruct G as [G|G].
    + assert (LK : nx s a = Some b /\ pv s b = Some a).
      { apply R1. unfold circ. rewrite EQ.
        change (p :: (l ++ [q]) ++ [p]) with ([p] ++ (l ++ [q]) ++ [p]).
        replace ((p :: l ++ [q]) ++ [p]) with ((p :: l) ++ q :: [p]) by (cbn; now rewrite <- app_assoc).
        rewrite consec_app. apply in_or_app. left. cbn [app]. destruct (l ++ [q]) eqn:EZ; [destruct G|]. right. exact G. }
      assert (a <> q).
      { intros ->. apply consec_fst in G. rewrite EQ in ND'. apply NoDup_remove_2 in ND'. rewrite app_nil_r in ND'. auto. }
      assert (b <> x).
      { intros ->. rewrite <- EQ in G. apply consec_snd in G. inversion ND'; subst. auto. }
      repeat (match goal with |- context [?u =? ?w] => destruct (Nat.eqb_spec u w); [congruence|] end). exact LK.
    + injection G as -> ->. rewrite !Nat.eqb_refl. auto.
Qed.

(** One step of a traversal. *)
Lemma is_first_ok (s : st) f p : first s = Some f -> is_first p s = Val (p =? f) s.
Proof. intro F. unfold is_first, bind, get_first, ret. now rewrite F. Qed.
Lemma next_cases s f l1 x l2 : ring s (l1 ++ x :: l2) -> NoDup (l1 ++ x :: l2) -> first s = Some f -> hd_error (l1 ++ x :: l2) = Some f ->
  (l2 = [] /\ nx s x = Some f) \/ (exists y l2', l2 = y :: l2' /\ nx s x = Some y /\ y <> f).
Proof.
  intros R ND F H. destruct l2 as [|y l2].
  - left. split; auto. apply R. rewrite circ_last. destruct l1 as [|z l1]; cbn in H; injection H as <-; [now left|].
    apply in_or_app. right. now left.
  - right. exists y, l2. split; auto. split.
    + apply R. destruct (l1 ++ x :: y :: l2) eqn:E; [destruct l1; discriminate|]. unfold circ. rewrite <- E.
      rewrite <- app_assoc. cbn [app]. rewrite consec_app. apply in_or_app. right. now left.
    + intros ->. destruct l1 as [|z l1]; cbn in H, ND; injection H as ->; inversion ND as [|? ? NI _]; subst; apply NI.
      * now left.
      * apply in_or_app. right. right. now left.
Qed.
Lemma last_ok s l p : ring s (l ++ [p]) -> first s = hd_error (l ++ [p]) -> last_node s = Val (Some p) s.
Proof.
  intros R F. assert (E : exists f, first s = Some f /\ pv s f = Some p).
  { destruct l as [|z l]; cbn in F; rewrite F; eexists; (split; [reflexivity|]); apply R; rewrite circ_last; [now left|].
    apply in_or_app. right. now left. }
  destruct E as (f & E & P). unfold last_node. rewrite (run _ _ s (Some f) s) by (unfold get_first; now rewrite E).
  now rewrite (run _ _ _ _ _ (rprev_ok _ _ _ P)).
Qed.
End Heap.
