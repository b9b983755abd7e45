(** Every list call does on the heap what its meaning says on the sequence.  Proof support for C34. *)
From Coq Require Import List Bool Arith Lia Permutation.
From Verif Require Import DCListModel DCListSpec DCListProofs DCListHeap.
Import ListNotations.

Section Refine.
Variable V : Type.
Variables le lt gt eq : V -> V -> bool.
Notation st := (st V).
Notation item := (nat * V)%type.
Implicit Types (l rest : list item) (v w u : V) (p q e : nat).
Definition names (l : list item) : list nat := map fst l.

Lemma names_app l1 l2 : names (l1 ++ l2) = names l1 ++ names l2. Proof. apply map_app. Qed.

(* ------------------------------------------------------------------------- *)
(** * Lookups                                                                 *)

Lemma lookup_in l p v : lookup p l = Some v -> In (p, v) l.
Proof.
  unfold lookup. destruct (find _ l) as [[q w]|] eqn:E; [|discriminate]. intro H. injection H as ->.
  apply find_some in E as [I E]. cbn in E. apply Nat.eqb_eq in E. now subst.
Qed.
Lemma lookup_cons q w l p : lookup p ((q, w) :: l) = if q =? p then Some w else lookup p l.
Proof. unfold lookup. cbn. now destruct (q =? p). Qed.
Lemma in_lookup l p v : NoDup (names l) -> In (p, v) l -> lookup p l = Some v.
Proof.
  induction l as [|[q w] l IH]; intros ND H; [contradiction|]. rewrite lookup_cons. inversion ND as [|? ? NI ND']; subst.
  destruct H as [E|H]; [injection E as -> ->; now rewrite Nat.eqb_refl|].
  destruct (Nat.eqb_spec q p) as [->|]; [|auto]. exfalso. apply NI. apply (in_map fst) in H. exact H.
Qed.
Lemma lookup_none l p : lookup p l = None <-> ~ In p (names l).
Proof.
  induction l as [|[q w] l IH]; [cbn; tauto|]. rewrite lookup_cons. cbn. destruct (Nat.eqb_spec q p) as [->|].
  - split; [discriminate|intro H; exfalso; apply H; auto].
  - rewrite IH. tauto.
Qed.
Lemma lookup_perm l l' p : Permutation l l' -> NoDup (names l) -> lookup p l' = lookup p l.
Proof.
  intros P ND. assert (ND' : NoDup (names l')) by (eapply Permutation_NoDup; [apply Permutation_map; exact P|exact ND]).
  destruct (lookup p l) as [v|] eqn:E.
  - apply in_lookup; auto. apply lookup_in in E. eapply Permutation_in; eauto.
  - apply lookup_none. apply lookup_none in E. intro H. apply E. eapply Permutation_in; [apply Permutation_map, Permutation_sym; exact P|exact H].
Qed.
Lemma split_at l p v : lookup p l = Some v -> exists l1 l2, l = l1 ++ (p, v) :: l2 /\ ~ In p (names l1).
Proof.
  induction l as [|[q w] l IH]; [discriminate|]. rewrite lookup_cons. destruct (Nat.eqb_spec q p) as [->|NE]; intro H.
  - injection H as ->. exists [], l. auto.
  - destruct (IH H) as (l1 & l2 & -> & N). exists ((q, w) :: l1), l2. split; auto. cbn. intros [E|E]; auto.
Qed.
Lemma has_lookup p l : has p l = true -> exists v, lookup p l = Some v.
Proof.
  unfold has, lookup. intro H. apply existsb_exists in H as (x & I & E).
  destruct (find (fun x0 => fst x0 =? p) l) as [y|] eqn:F; [eauto|]. eapply find_none in F; eauto. cbn in F. congruence.
Qed.

Lemma behind_split p x l1 v l2 : ~ In p (names l1) -> behind p x (l1 ++ (p, v) :: l2) = l1 ++ (p, v) :: x :: l2.
Proof.
  induction l1 as [|[q w] l1 IH]; intro N; cbn; [now rewrite Nat.eqb_refl|].
  destruct (Nat.eqb_spec q p) as [->|]; [exfalso; apply N; now left|]. rewrite IH; auto. intro. apply N. now right.
Qed.
Lemma drop_none p l : ~ In p (names l) -> drop p l = l.
Proof.
  induction l as [|[q w] l IH]; intro N; [reflexivity|]. cbn. destruct (Nat.eqb_spec q p) as [->|]; [exfalso; apply N; now left|].
  cbn. f_equal. apply IH. intro. apply N. now right.
Qed.
Lemma drop_split p v l1 l2 : NoDup (names (l1 ++ (p, v) :: l2)) -> drop p (l1 ++ (p, v) :: l2) = l1 ++ l2.
Proof.
  intro ND. rewrite names_app in ND. cbn in ND. apply NoDup_remove_2 in ND.
  unfold drop. rewrite filter_app. cbn. rewrite Nat.eqb_refl. cbn. fold (drop p l1) (drop p l2).
  rewrite !drop_none; auto; intro; apply ND, in_or_app; auto.
Qed.
Lemma in_order_split x l : exists l1 l2, l = l1 ++ l2 /\ in_order lt x l = l1 ++ x :: l2 /\
  (forall y, In y l1 -> lt (snd x) (snd y) = false) /\ (match l2 with [] => True | y :: _ => lt (snd x) (snd y) = true end).
Proof.
  induction l as [|y l IH]; [exists [], []; repeat split; easy|]. cbn. destruct (lt (snd x) (snd y)) eqn:E.
  - exists [], (y :: l). repeat split; auto. intros ? [].
  - destruct IH as (l1 & l2 & -> & H & A & B). exists (y :: l1), l2. rewrite H. repeat split; auto. intros z [<-|Hz]; auto.
Qed.
Lemma in_order_at x l1 l2 : (forall y, In y l1 -> lt (snd x) (snd y) = false) ->
  (match l2 with [] => True | y :: _ => lt (snd x) (snd y) = true end) -> in_order lt x (l1 ++ l2) = l1 ++ x :: l2.
Proof.
  induction l1 as [|y l1 IH]; intros A B; cbn.
  - destruct l2 as [|z l2]; [reflexivity|]. cbn. now rewrite B.
  - rewrite A by now left. f_equal. apply IH; auto. intros; apply A; now right.
Qed.

(* ------------------------------------------------------------------------- *)
(** * Shapes                                                                  *)

Record shape (s : st) (l : list item) : Prop := {
  s_ring : ring V s (names l);
  s_nodup : NoDup (names l);
  s_first : first s = hd_error (names l);
  s_vals : forall p v, In (p, v) l -> vl V s p = Some v }.

Lemma s_live s l q : shape s l -> In q (names l) -> vl V s q <> None.
Proof. intros S H. apply in_map_iff in H as ([p v] & <- & I). cbn. rewrite (s_vals _ _ S p v I). discriminate. Qed.
Lemma vals_kept s s' : kept V s s' -> forall p v, vl V s p = Some v -> vl V s' p = Some v.
Proof. intros K p v. now rewrite (proj1 K). Qed.

Lemma perm_mid {A} (e p : A) (l1 l2 : list A) : Permutation (e :: l1 ++ p :: l2) (l1 ++ p :: e :: l2).
Proof.
  replace (l1 ++ p :: e :: l2) with ((l1 ++ [p]) ++ e :: l2) by now rewrite <- app_assoc.
  apply Permutation_cons_app. now rewrite <- app_assoc.
Qed.
Lemma shape_add s l1 p w l2 e v : shape s (l1 ++ (p, w) :: l2) -> ~ In e (names (l1 ++ (p, w) :: l2)) -> vl V s e = Some v ->
  exists s', add (Some p) e s = Val tt s' /\ kept V s s' /\ shape s' (l1 ++ (p, w) :: (e, v) :: l2).
Proof.
  intros S N E. pose proof (s_ring _ _ S) as R. pose proof (s_nodup _ _ S) as ND. pose proof (s_first _ _ S) as F.
  rewrite names_app in *. cbn in *.
  assert (Fs : exists f, first s = Some f) by (rewrite F; destruct l1; cbn; eauto). destruct Fs as (f & Fs).
  destruct (add_ok V s (names l1) p (names l2) e f) as (s' & A & K & F' & R'); auto.
  - constructor; auto.
  - intros q [<-|H]; [congruence|]. apply (s_live _ _ q S). rewrite names_app. exact H.
  - exists s'. split; [exact A|]. split; [exact K|]. constructor.
    + rewrite names_app. exact R'.
    + rewrite names_app. cbn. apply (Permutation_NoDup (l := e :: names l1 ++ p :: names l2)); [|constructor; auto].
      apply perm_mid.
    + rewrite F', F, names_app. destruct l1; reflexivity.
    + intros q u H. apply (vals_kept s); auto. rewrite in_app_iff in H. cbn in H.
      destruct H as [H|[H|[H|H]]]; try (apply (s_vals _ _ S); rewrite in_app_iff; cbn; tauto). congruence.
Qed.
Lemma shape_add_nil s pos e v : shape s [] -> vl V s e = Some v ->
  exists s', add pos e s = Val tt s' /\ kept V s s' /\ shape s' [(e, v)].
Proof.
  intros S E. destruct (add_empty_ok V s pos e) as (s' & A & K & F & R); [apply (s_first _ _ S)|congruence|].
  exists s'. split; [exact A|]. split; [exact K|]. constructor; auto.
  - cbn. constructor; [intros []|constructor].
  - intros p u [H|[]]. injection H as <- <-. now apply (vals_kept s).
Qed.
Lemma shape_last s l x : shape s (l ++ [x]) -> last_node s = Val (Some (fst x)) s.
Proof.
  intro S. pose proof (s_ring _ _ S) as R. pose proof (s_first _ _ S) as F. rewrite names_app in *. now apply (last_ok V s (names l)).
Qed.
Lemma shape_last_nil s : shape s [] -> last_node s = Val None s.
Proof. intro S. unfold last_node. rewrite (run V _ _ s None s); [reflexivity|]. unfold get_first. now rewrite (s_first _ _ S). Qed.

Lemma shape_rot s l1 l2 s' : shape s (l1 ++ l2) -> kept V s s' -> (forall r, nx V s' r = nx V s r) -> (forall r, pv V s' r = pv V s r) ->
  first s' = hd_error (names (l2 ++ l1)) -> shape s' (l2 ++ l1).
Proof.
  intros S K N P F. constructor; auto.
  - apply (ring_links V s); auto. rewrite names_app. apply ring_rot. rewrite <- names_app. apply (s_ring _ _ S).
  - apply (Permutation_NoDup (l := names (l1 ++ l2))); [apply Permutation_map, Permutation_app_comm|apply (s_nodup _ _ S)].
  - intros p v H. apply (vals_kept s); auto. apply (s_vals _ _ S). rewrite in_app_iff in *. tauto.
Qed.

(** Where a front insertion ends: the new node is behind the last one, and becomes the first. *)
Lemma shape_to_front s l x e v : shape s ((l ++ [x]) ++ [(e, v)]) ->
  exists s', (q <- rnext (fst x);; set_first (Some q)) s = Val tt s' /\ kept V s s' /\ shape s' ((e, v) :: l ++ [x]).
Proof.
  intro S. pose proof (s_ring _ _ S) as R. rewrite names_app in R. cbn in R.
  assert (A : nx V s (fst x) = Some e).
  { apply R. rewrite names_app. cbn. rewrite <- app_assoc. cbn.
    unfold circ. destruct (names l ++ [fst x; e]) as [|z r] eqn:EZ; [destruct (names l); discriminate|].
    rewrite <- EZ. rewrite <- app_assoc. cbn. rewrite consec_app. apply in_or_app. right. now left. }
  rewrite (run V _ _ _ _ _ (rnext_ok V _ _ _ A)).
  destruct (set_first_ok V s (Some e)) as (s1 & E1 & K1 & F1 & N1 & P1). exists s1. split; [exact E1|]. split; [exact K1|].
  apply (shape_rot s (l ++ [x]) [(e, v)]); auto.
Qed.
Lemma shape_add_front s l e v : shape s l -> l <> [] -> ~ In e (names l) -> vl V s e = Some v ->
  exists s', add_front e s = Val tt s' /\ kept V s s' /\ shape s' ((e, v) :: l).
Proof.
  intros S NN NI E. destruct (exists_last NN) as (l' & [q w] & ->).
  unfold add_front. rewrite (run V _ _ _ _ _ (shape_last _ _ _ S)).
  destruct (shape_add s l' q w [] e v) as (s1 & E1 & K1 & S1); auto. rewrite (run V _ _ _ _ _ E1).
  rewrite (run V _ _ s1 q s1) by reflexivity.
  replace (l' ++ [(q, w); (e, v)]) with ((l' ++ [(q, w)]) ++ [(e, v)]) in S1 by now rewrite <- app_assoc.
  destruct (shape_to_front _ _ _ _ _ S1) as (s2 & E2 & K2 & S2). exists s2. split; [exact E2|].
  split; [now apply (kept_trans V _ s1)|exact S2].
Qed.

Lemma shape_remove s l1 p v l2 : shape s (l1 ++ (p, v) :: l2) ->
  exists s', remove_node p s = Val p s' /\ kept V s s' /\ shape s' (l1 ++ l2).
Proof.
  intro S. pose proof (s_ring _ _ S) as R. pose proof (s_nodup _ _ S) as ND. pose proof (s_first _ _ S) as F.
  rewrite names_app in *. cbn in *.
  destruct (remove_ok V s (names l1) p (names l2)) as (s' & A & K & F' & R'); auto.
  { intros q Hq. apply (s_live _ _ q S). rewrite names_app. exact Hq. }
  exists s'. split; [exact A|]. split; [exact K|]. constructor; rewrite ?names_app; auto.
  - now apply NoDup_remove_1 in ND.
  - intros q u H. apply (vals_kept s); auto. apply (s_vals _ _ S). rewrite in_app_iff in *. cbn. tauto.
Qed.

Lemma shape_next s f l1 p v l2 : shape s (l1 ++ (p, v) :: l2) -> first s = Some f ->
  (l2 = [] /\ nx V s p = Some f) \/ (exists q w l2', l2 = (q, w) :: l2' /\ nx V s p = Some q /\ q <> f).
Proof.
  intros S F. destruct (next_cases V s f (names l1) p (names l2)) as [[A B]|(y & l2' & A & B & C)].
  - pose proof (s_ring _ _ S) as R. now rewrite names_app in R.
  - pose proof (s_nodup _ _ S) as R. now rewrite names_app in R.
  - exact F.
  - pose proof (s_first _ _ S) as R. rewrite names_app in R. cbn in R. exact (eq_trans (eq_sym R) F).
  - left. split; auto. now destruct l2.
  - right. destruct l2 as [|[q w] l2]; [discriminate|]. cbn in A. injection A as <- <-. eauto 6.
Qed.
Lemma shape_val s l p v : shape s l -> In (p, v) l -> rval p s = Val v s.
Proof. intros S H. apply rval_ok. now apply (s_vals _ _ S). Qed.
Lemma shape_first s x l : shape s (x :: l) -> first s = Some (fst x). Proof. apply s_first. Qed.
Lemma shape_first_nil s : shape s [] -> first s = None. Proof. apply s_first. Qed.
Lemma shape_some s l1 x l2 : shape s (l1 ++ x :: l2) -> exists f, first s = Some f.
Proof. intro S. rewrite (s_first _ _ S). destruct l1; cbn; eauto. Qed.
Lemma is_first_run (s : st) f q : first s = Some f -> is_first q s = Val (q =? f) s. Proof. apply is_first_ok. Qed.
Lemma get_first_run (s : st) f : first s = f -> get_first s = Val f s. Proof. intros <-. reflexivity. Qed.

Lemma seek_ok s v : forall n l1 x l2, shape s (l1 ++ x :: l2) -> lt v (snd x) = false -> l1 = [] \/ l2 <> [] -> length l2 < n ->
  exists m1 y m2, x :: l2 = m1 ++ y :: m2 /\ seek lt n v (fst x) s = Val (fst y) s /\
    (forall z, In z (m1 ++ [y]) -> lt v (snd z) = false) /\ (match m2 with [] => True | z :: _ => lt v (snd z) = true end).
Proof.
  induction n as [|n IH]; intros l1 [p w] l2 S L NN H; [lia|]. cbn [snd fst] in *.
  destruct (shape_some _ _ _ _ S) as (f & F). cbn [seek].
  destruct (shape_next _ _ _ _ _ _ S F) as [[-> N]|(q & u & l2' & -> & N & NF)].
  - destruct NN as [->|]; [|easy]. pose proof (shape_first _ _ _ S) as F'. cbn in F'. rewrite F in F'. injection F' as ->.
    rewrite (run V _ _ _ _ _ (rnext_ok V _ _ _ N)). rewrite (run V _ _ _ _ _ (shape_val _ _ p w S ltac:(now left))).
    rewrite L. rewrite (run V _ _ _ _ _ (rnext_ok V _ _ _ N)). rewrite (run V _ _ _ _ _ (is_first_run _ _ p F)).
    rewrite Nat.eqb_refl. exists [], (p, w), []. repeat split; auto. intros z [<-|[]]. exact L.
  - rewrite (run V _ _ _ _ _ (rnext_ok V _ _ _ N)).
    assert (Iq : In (q, u) (l1 ++ (p, w) :: (q, u) :: l2')) by (apply in_or_app; right; right; now left).
    rewrite (run V _ _ _ _ _ (shape_val _ _ q u S Iq)).
    destruct (lt v u) eqn:LU.
    + exists [], (p, w), ((q, u) :: l2'). repeat split; auto. intros z [<-|[]]. exact L.
    + assert (S' : shape s ((l1 ++ [(p, w)]) ++ (q, u) :: l2')) by now rewrite <- app_assoc.
      destruct (shape_next _ _ _ _ _ _ S' F) as [[-> N2]|(r & u2 & l3 & -> & N2 & NF2)].
      * rewrite (run V _ _ _ _ _ (rnext_ok V _ _ _ N2)). rewrite (run V _ _ _ _ _ (is_first_run _ _ f F)). rewrite Nat.eqb_refl.
        exists [(p, w)], (q, u), []. repeat split; auto. intros z [<-|[<-|[]]]; auto.
      * rewrite (run V _ _ _ _ _ (rnext_ok V _ _ _ N2)). rewrite (run V _ _ _ _ _ (is_first_run _ _ r F)).
        destruct (Nat.eqb_spec r f); [easy|].
        destruct (IH (l1 ++ [(p, w)]) (q, u) ((r, u2) :: l3)) as (m1 & y & m2 & E & G & A & B); auto.
        { right. discriminate. } { cbn in *. lia. }
        exists ((p, w) :: m1), y, m2. rewrite E. repeat split; auto. intros z [<-|Hz]; auto.
Qed.

(** The common part of the sorted insertions, for a value not before the first one. *)
Lemma seek_spot s v n x l : shape s (x :: l) -> lt v (snd x) = false -> length l < n ->
  exists l1 y l2, x :: l = l1 ++ y :: l2 /\ seek lt n v (fst x) s = Val (fst y) s /\
    forall e, in_order lt (e, v) (x :: l) = l1 ++ y :: (e, v) :: l2.
Proof.
  intros S L H. destruct (seek_ok s v n [] x l S L (or_introl eq_refl) H) as (m1 & y & m2 & E & G & A & B).
  exists m1, y, m2. split; [exact E|]. split; [exact G|]. intro e. rewrite E.
  replace (m1 ++ y :: m2) with ((m1 ++ [y]) ++ m2) by now rewrite <- app_assoc.
  rewrite in_order_at; auto. now rewrite <- app_assoc.
Qed.

Lemma shape_add_sort s l e v n : shape s l -> ~ In e (names l) -> vl V s e = Some v -> length l <= n ->
  exists s', add_sort lt n e s = Val tt s' /\ kept V s s' /\ shape s' (in_order lt (e, v) l).
Proof.
  intros S N E H. unfold add_sort. rewrite (run V _ _ _ _ _ (get_first_run s _ eq_refl)).
  destruct l as [|x l]; [rewrite (shape_first_nil _ S); now apply shape_add_nil|].
  rewrite (shape_first _ _ _ S). rewrite (run V _ _ _ _ _ (rval_ok V _ _ _ E)).
  destruct x as [p w]. rewrite (run V _ _ _ _ _ (shape_val _ _ p w S (or_introl eq_refl))).
  destruct (lt v w) eqn:L.
  - assert (IO : in_order lt (e, v) ((p, w) :: l) = (e, v) :: (p, w) :: l) by (cbn; now rewrite L).
    rewrite IO. apply shape_add_front; auto. discriminate.
  - destruct (seek_spot s v n (p, w) l S L ltac:(cbn in H; lia)) as (l1 & [q u] & l2 & EQ & G & IO).
    cbn [fst] in *. rewrite (run V _ _ _ _ _ G). rewrite IO. rewrite EQ in S, N. now apply shape_add.
Qed.

(** 467-507 *)
Lemma sort_ok (O : ordering V le lt gt) : forall rest s n k pre x, shape s (pre ++ x :: rest) ->
  (forall z, In z pre -> lt (snd x) (snd z) = false) -> length rest < n -> length (pre ++ x :: rest) <= k ->
  exists s', sort_loop lt gt n k (fst x) s = Val tt s' /\ kept V s s' /\
    shape s' (fold_left (fun acc y => in_order lt y acc) rest (pre ++ [x])).
Proof.
  induction rest as [|[q u] rest IH]; intros s n k pre [p w] S MX Hn Hk; cbn [fst snd] in *;
    destruct n as [|n]; try (cbn in Hn; lia); destruct (shape_some _ _ _ _ S) as (f & F); cbn [sort_loop fold_left].
  - destruct (shape_next _ _ _ _ _ _ S F) as [[_ N]|(? & ? & ? & ? & _)]; [|discriminate].
    rewrite (run V _ _ _ _ _ (rnext_ok V _ _ _ N)). rewrite (run V _ _ _ _ _ (is_first_run _ _ f F)). rewrite Nat.eqb_refl.
    exists s. split; [reflexivity|]. split; [apply kept_refl|exact S].
  - destruct (shape_next _ _ _ _ _ _ S F) as [[? _]|(q' & u' & l' & E & N & NF)]; [discriminate|]. injection E as <- <- <-.
    rewrite (run V _ _ _ _ _ (rnext_ok V _ _ _ N)). rewrite (run V _ _ _ _ _ (is_first_run _ _ q F)).
    destruct (Nat.eqb_spec q f); [easy|].
    rewrite (run V _ _ _ _ _ (shape_val _ _ p w S ltac:(apply in_or_app; right; now left))).
    rewrite (run V _ _ _ _ _ (shape_val _ _ q u S ltac:(apply in_or_app; right; right; now left))).
    rewrite (gt_lt _ _ _ _ O). destruct (lt u w) eqn:L.
    + assert (S0 : shape s ((pre ++ [(p, w)]) ++ (q, u) :: rest)) by now rewrite <- app_assoc.
      assert (Eq : vl V s q = Some u) by (apply (s_vals _ _ S); apply in_or_app; right; right; now left).
      destruct (shape_remove _ _ _ _ _ S0) as (s1 & E1 & K1 & S1). rewrite (run V _ _ _ _ _ E1).
      assert (NI : ~ In q (names ((pre ++ [(p, w)]) ++ rest))).
      { pose proof (s_nodup _ _ S0) as ND. rewrite names_app in *. cbn in ND. now apply NoDup_remove_2 in ND. }
      rewrite app_length in Hk. cbn in Hk.
      destruct (shape_add_sort s1 _ q u k S1 NI) as (s2 & E2 & K2 & S2).
      { now apply (vals_kept s). } { rewrite !app_length. cbn. lia. }
      rewrite (run V _ _ _ _ _ E2).
      (* the spot is in front of x *)
      assert (SP : exists h1 h2, pre = h1 ++ h2 /\ in_order lt (q, u) ((pre ++ [(p, w)]) ++ rest) = (h1 ++ (q, u) :: h2) ++ (p, w) :: rest /\
                     in_order lt (q, u) (pre ++ [(p, w)]) = (h1 ++ (q, u) :: h2) ++ [(p, w)]).
      { destruct (in_order_split (q, u) pre) as (h1 & h2 & -> & _ & A & B). exists h1, h2. split; auto.
        rewrite <- !app_assoc. cbn. rewrite !in_order_at; auto; destruct h2; cbn; auto. }
      destruct SP as (h1 & h2 & -> & IO1 & IO2). rewrite IO1 in S2. rewrite IO2.
      destruct (IH s2 n k (h1 ++ (q, u) :: h2) (p, w) S2) as (s3 & E3 & K3 & S3).
      * intros z Hz. cbn. rewrite in_app_iff in Hz. cbn in Hz. destruct Hz as [Hz|[<-|Hz]].
        -- apply MX. apply in_or_app. now left.
        -- cbn. now apply (lt_asym _ _ _ _ O).
        -- apply MX. apply in_or_app. now right.
      * cbn in Hn. lia.
      * rewrite !app_length in *. cbn. lia.
      * exists s3. split; [exact E3|]. split; [apply (kept_trans V _ s1), (kept_trans V _ s2); auto|exact S3].
    + assert (AL : forall z, In z (pre ++ [(p, w)]) -> lt u (snd z) = false).
      { intros z Hz. apply in_app_or in Hz as [Hz|[<-|[]]]; [|exact L].
        apply (lt_neg_trans _ _ _ _ O) with w; auto. }
      assert (IO : in_order lt (q, u) (pre ++ [(p, w)]) = (pre ++ [(p, w)]) ++ [(q, u)]).
      { rewrite <- (app_nil_r (pre ++ [(p, w)])) at 1. now rewrite in_order_at. }
      rewrite IO. apply (IH s n k (pre ++ [(p, w)]) (q, u)); auto.
      * now rewrite <- app_assoc.
      * cbn in Hn. lia.
      * rewrite <- app_assoc. exact Hk.
Qed.

(** Traversals. *)
Lemma count_ok s : forall l2 l1 x n c, shape s (l1 ++ x :: l2) -> length l2 < n ->
  count_loop n (fst x) c s = Val (c + length (x :: l2)) s.
Proof.
  induction l2 as [|[q u] l2 IH]; intros l1 [p w] n c S H; destruct n as [|n]; try (cbn in H; lia);
    destruct (shape_some _ _ _ _ S) as (f & F); cbn [count_loop fst].
  - destruct (shape_next _ _ _ _ _ _ S F) as [[_ N]|(? & ? & ? & ? & _)]; [|discriminate].
    rewrite (run V _ _ _ _ _ (rnext_ok V _ _ _ N)). rewrite (run V _ _ _ _ _ (is_first_run _ _ f F)). rewrite Nat.eqb_refl.
    cbn. unfold ret. f_equal. lia.
  - destruct (shape_next _ _ _ _ _ _ S F) as [[? _]|(q' & u' & l' & E & N & NF)]; [discriminate|]. injection E as <- <- <-.
    rewrite (run V _ _ _ _ _ (rnext_ok V _ _ _ N)). rewrite (run V _ _ _ _ _ (is_first_run _ _ q F)).
    destruct (Nat.eqb_spec q f); [easy|]. rewrite (IH (l1 ++ [(p, w)]) (q, u)).
    + f_equal. cbn. lia.
    + now rewrite <- app_assoc.
    + cbn in H. lia.
Qed.
Lemma print_ok s : forall l2 l1 x n acc, shape s (l1 ++ x :: l2) -> length l2 < n ->
  print_loop n (fst x) acc s = Val (rev acc ++ map snd (x :: l2)) s.
Proof.
  induction l2 as [|[q u] l2 IH]; intros l1 [p w] n acc S H; destruct n as [|n]; try (cbn in H; lia);
    destruct (shape_some _ _ _ _ S) as (f & F); cbn [print_loop fst];
    rewrite (run V _ _ _ _ _ (shape_val _ _ p w S ltac:(apply in_or_app; right; now left))).
  - destruct (shape_next _ _ _ _ _ _ S F) as [[_ N]|(? & ? & ? & ? & _)]; [|discriminate].
    rewrite (run V _ _ _ _ _ (rnext_ok V _ _ _ N)). rewrite (run V _ _ _ _ _ (is_first_run _ _ f F)). rewrite Nat.eqb_refl.
    reflexivity.
  - destruct (shape_next _ _ _ _ _ _ S F) as [[? _]|(q' & u' & l' & E & N & NF)]; [discriminate|]. injection E as <- <- <-.
    rewrite (run V _ _ _ _ _ (rnext_ok V _ _ _ N)). rewrite (run V _ _ _ _ _ (is_first_run _ _ q F)).
    destruct (Nat.eqb_spec q f); [easy|]. rewrite (IH (l1 ++ [(p, w)]) (q, u)).
    + f_equal. cbn. now rewrite <- app_assoc.
    + now rewrite <- app_assoc.
    + cbn in H. lia.
Qed.
Lemma find_ok s v : forall l2 l1 x n, shape s (l1 ++ x :: l2) -> length l2 < n ->
  find_loop eq n v (fst x) s = Val (option_map fst (List.find (fun y => eq v (snd y)) (x :: l2))) s.
Proof.
  induction l2 as [|[q u] l2 IH]; intros l1 [p w] n S H; destruct n as [|n]; try (cbn in H; lia);
    destruct (shape_some _ _ _ _ S) as (f & F); cbn [find_loop fst];
    rewrite (run V _ _ _ _ _ (shape_val _ _ p w S ltac:(apply in_or_app; right; now left))); cbn [List.find snd];
    destruct (eq v w); try reflexivity.
  - destruct (shape_next _ _ _ _ _ _ S F) as [[_ N]|(? & ? & ? & ? & _)]; [|discriminate].
    rewrite (run V _ _ _ _ _ (rnext_ok V _ _ _ N)). rewrite (run V _ _ _ _ _ (is_first_run _ _ f F)). now rewrite Nat.eqb_refl.
  - destruct (shape_next _ _ _ _ _ _ S F) as [[? _]|(q' & u' & l' & E & N & NF)]; [discriminate|]. injection E as <- <- <-.
    rewrite (run V _ _ _ _ _ (rnext_ok V _ _ _ N)). rewrite (run V _ _ _ _ _ (is_first_run _ _ q F)).
    destruct (Nat.eqb_spec q f); [easy|]. apply (IH (l1 ++ [(p, w)]) (q, u)).
    + now rewrite <- app_assoc.
    + cbn in H. lia.
Qed.

Lemma release_ok s p v : vl V s p = Some v -> exists s', release p s = Val tt s' /\ first s' = first s /\ brk s' = brk s /\
  freed s' = v :: freed s /\ (forall q, vl V s' q = if q =? p then None else vl V s q) /\
  (forall q, q <> p -> nx V s' q = nx V s q) /\ (forall q, q <> p -> pv V s' q = pv V s q).
Proof.
  unfold vl, release. destruct (heap s p) as [c|] eqn:E; [|discriminate]. intro H. injection H as <-.
  eexists. split; [reflexivity|]. unfold nx, pv, put. cbn. repeat split; intros q; [destruct (q =? p); reflexivity|..];
    intro NE; destruct (Nat.eqb_spec q p); congruence.
Qed.
Lemma empty_ok f : forall l2 s x n, first s = Some f -> NoDup (names (x :: l2)) -> ~ In f (names l2) ->
  (forall p v, In (p, v) (x :: l2) -> vl V s p = Some v) ->
  (forall a b, In (a, b) (consec (names (x :: l2) ++ [f])) -> nx V s a = Some b) -> length l2 < n ->
  exists s', empty_loop n (fst x) s = Val tt s' /\ first s' = first s /\ brk s' = brk s /\
    freed s' = rev (map snd (x :: l2)) ++ freed s /\
    (forall q, vl V s' q = if existsb (Nat.eqb q) (names (x :: l2)) then None else vl V s q).
Proof.
  induction l2 as [|[q u] l2 IH]; intros s [p w] n F ND NF VL L H; destruct n as [|n]; try (cbn in H; lia); cbn [empty_loop fst].
  - rewrite (run V _ _ _ _ _ (rnext_ok V _ _ _ (L p f ltac:(now left)))).
    destruct (release_ok s p w (VL p w ltac:(now left))) as (s1 & E1 & F1 & B1 & R1 & V1 & N1 & P1).
    rewrite (run V _ _ _ _ _ E1). rewrite (run V _ _ _ _ _ (is_first_run s1 f f ltac:(congruence))). rewrite Nat.eqb_refl.
    exists s1. split; [reflexivity|]. repeat split; auto. intro r. rewrite V1. cbn. now destruct (r =? p).
  - rewrite (run V _ _ _ _ _ (rnext_ok V _ _ _ (L p q ltac:(now left)))).
    destruct (release_ok s p w (VL p w ltac:(now left))) as (s1 & E1 & F1 & B1 & R1 & V1 & N1 & P1).
    rewrite (run V _ _ _ _ _ E1). rewrite (run V _ _ _ _ _ (is_first_run s1 f q ltac:(congruence))).
    inversion ND as [|? ? NI ND']; subst.
    destruct (Nat.eqb_spec q f) as [->|]; [exfalso; apply NF; now left|].
    destruct (IH s1 (q, u) n) as (s2 & E2 & F2 & B2 & R2 & V2).
    + congruence.
    + exact ND'.
    + intro X. apply NF. now right.
    + intros r v I. rewrite V1. destruct (Nat.eqb_spec r p) as [->|]; [|apply VL; now right].
      exfalso. apply NI. apply (in_map fst) in I. exact I.
    + intros a b I. assert (a <> p). { intros ->. apply NI. now apply consec_fst in I. }
      rewrite N1 by auto. apply L. right. exact I.
    + cbn in H. lia.
    + exists s2. split; [exact E2|]. split; [congruence|]. split; [congruence|]. split.
      * rewrite R2, R1. cbn. now rewrite <- !app_assoc.
      * intro r. rewrite V2, V1. cbn. destruct (r =? p); cbn; [now destruct (_ || _)|reflexivity].
Qed.

(* ------------------------------------------------------------------------- *)
(** * The refinement                                                          *)

Record repr (s : st) (a : seq V) : Prop := {
  r_shape : shape s (items a);
  r_nodup : NoDup (names (items a ++ loose a));
  r_vl : forall p, vl V s p = lookup p (items a ++ loose a);
  r_brk : brk s = fresh a;
  r_freed : freed s = gone a;
  r_below : forall p, In p (names (items a ++ loose a)) -> p < fresh a }.

Lemma length_below s a : repr s a -> length (items a) <= fresh a.
Proof.
  intro R. rewrite <- (map_length fst), <- (seq_length (fresh a) 0). apply NoDup_incl_length; [apply (s_nodup _ _ (r_shape _ _ R))|].
  intros p Hp. apply in_seq. split; [lia|]. apply (r_below _ _ R). rewrite names_app. apply in_or_app. now left.
Qed.

(** Putting a loose node, or a new one, into the list. *)
Lemma repr_items s a s' l b : repr s a -> kept V s s' -> shape s' l -> Permutation (l ++ b) (items a ++ loose a) ->
  repr s' {| items := l; loose := b; gone := gone a; fresh := fresh a |}.
Proof.
  intros R (K1 & K2 & K3) S P. pose proof (r_nodup _ _ R) as ND.
  assert (ND' : NoDup (names (l ++ b))).
  { eapply Permutation_NoDup; [apply Permutation_map, Permutation_sym; exact P|exact ND]. }
  constructor; cbn; auto.
  - intro p. rewrite K1, (r_vl _ _ R). now apply lookup_perm.
  - now rewrite K2, (r_brk _ _ R).
  - now rewrite K3, (r_freed _ _ R).
  - intros p Hp. apply (r_below _ _ R). eapply Permutation_in; [apply Permutation_map; exact P|exact Hp].
Qed.

(** A new node is a loose one. *)
Definition extra (a : seq V) (v : V) : seq V :=
  {| items := items a; loose := (fresh a, v) :: loose a; gone := gone a; fresh := S (fresh a) |}.
Lemma new_ok s a v : repr s a -> exists s', new v s = Val (fresh a) s' /\ repr s' (extra a v).
Proof.
  intro R. unfold new. rewrite (r_brk _ _ R). eexists. split; [reflexivity|].
  assert (NI : ~ In (fresh a) (names (items a ++ loose a))) by (intro X; apply (r_below _ _ R) in X; lia).
  pose proof (r_shape _ _ R) as SH.
  assert (H0 : heap s (fresh a) = None).
  { pose proof (r_vl _ _ R (fresh a)) as X. apply lookup_none in NI. rewrite NI in X. unfold vl in X. now destruct (heap s (fresh a)). }
  assert (NX : forall q, nx V {| heap := put (heap s) (fresh a) (Some {| val := v; prev := None; next := None |}); brk := S (fresh a); first := first s; freed := freed s |} q = nx V s q).
  { intro q. unfold nx, put. cbn. destruct (Nat.eqb_spec q (fresh a)) as [->|]; [now rewrite H0|reflexivity]. }
  assert (PX : forall q, pv V {| heap := put (heap s) (fresh a) (Some {| val := v; prev := None; next := None |}); brk := S (fresh a); first := first s; freed := freed s |} q = pv V s q).
  { intro q. unfold pv, put. cbn. destruct (Nat.eqb_spec q (fresh a)) as [->|]; [now rewrite H0|reflexivity]. }
  assert (VX : forall q, vl V {| heap := put (heap s) (fresh a) (Some {| val := v; prev := None; next := None |}); brk := S (fresh a); first := first s; freed := freed s |} q = if fresh a =? q then Some v else vl V s q).
  { intro q. unfold vl, put. cbn. rewrite (Nat.eqb_sym (fresh a) q). now destruct (q =? fresh a). }
  constructor; cbn [extra items loose gone fresh brk freed].
  - constructor; cbn [first].
    + apply (ring_links V s); auto. apply (s_ring _ _ SH).
    + apply (s_nodup _ _ SH).
    + apply (s_first _ _ SH).
    + intros p u I. rewrite VX. destruct (Nat.eqb_spec (fresh a) p) as [<-|]; [|now apply (s_vals _ _ SH)].
      exfalso. apply NI. rewrite names_app. apply in_or_app. left. apply (in_map fst) in I. exact I.
  - rewrite names_app. cbn. apply (Permutation_NoDup (l := fresh a :: names (items a ++ loose a))).
    + rewrite names_app. apply Permutation_middle.
    + constructor; [exact NI|apply (r_nodup _ _ R)].
  - intro p. rewrite VX, (r_vl _ _ R). rewrite <- lookup_cons.
    apply lookup_perm; [|].
    + apply Permutation_sym. apply Permutation_middle.
    + rewrite names_app. cbn. apply (Permutation_NoDup (l := fresh a :: names (items a ++ loose a))).
      * rewrite names_app. apply Permutation_middle.
      * constructor; [exact NI|apply (r_nodup _ _ R)].
  - reflexivity.
  - apply (r_freed _ _ R).
  - intros p Hp. rewrite names_app in Hp. cbn in Hp. apply in_app_or in Hp as [Hp|[<-|Hp]]; [|lia|];
      (apply Nat.lt_trans with (fresh a); [|lia]); apply (r_below _ _ R); rewrite names_app; apply in_or_app; auto.
Qed.

Lemma loose_facts s a e v : repr s a -> lookup e (loose a) = Some v ->
  ~ In e (names (items a)) /\ vl V s e = Some v /\ exists b1 b2, loose a = b1 ++ (e, v) :: b2 /\ drop e (loose a) = b1 ++ b2.
Proof.
  intros R L. pose proof (r_nodup _ _ R) as ND. destruct (split_at _ _ _ L) as (b1 & b2 & E & _).
  assert (NDL : NoDup (names (loose a))).
  { rewrite names_app in ND. clear - ND. induction (names (items a)); [exact ND|]. inversion ND; auto. }
  split; [|split].
  - intro X. rewrite names_app in ND. apply lookup_in, (in_map fst) in L. cbn in L.
    apply in_split in X as (n1 & n2 & X). rewrite X in ND. rewrite <- app_assoc in ND. cbn in ND. apply NoDup_remove_2 in ND.
    apply ND. rewrite !in_app_iff. auto.
  - rewrite (r_vl _ _ R). apply in_lookup; auto. apply in_or_app. right. now apply lookup_in.
  - exists b1, b2. split; [exact E|]. rewrite E in NDL |- *. now apply drop_split.
Qed.

(** A loose node [e] put somewhere into the list. *)
Lemma put_ok s a e v (m : M V unit) l1 l2 : repr s a -> lookup e (loose a) = Some v -> items a = l1 ++ l2 ->
  (~ In e (names (items a)) -> vl V s e = Some v -> exists s', m s = Val tt s' /\ kept V s s' /\ shape s' (l1 ++ (e, v) :: l2)) ->
  exists s', m s = Val tt s' /\ repr s' {| items := l1 ++ (e, v) :: l2; loose := drop e (loose a); gone := gone a; fresh := fresh a |}.
Proof.
  intros R L E H. destruct (loose_facts s a e v R L) as (NI & VE & b1 & b2 & EB & ED).
  destruct (H NI VE) as (s' & X & K & S). exists s'. split; [exact X|]. apply (repr_items s a); auto.
  rewrite ED, E, EB. rewrite <- !app_assoc. cbn. apply Permutation_app_head.
  rewrite app_assoc, (app_assoc l2 b1). apply Permutation_cons_app. reflexivity.
Qed.

(** The same for a new node. *)
Lemma made_ok s a v (m : nat -> M V unit) l1 l2 : repr s a -> items a = l1 ++ l2 ->
  (forall s1, repr s1 (extra a v) -> ~ In (fresh a) (names (items a)) -> vl V s1 (fresh a) = Some v ->
     exists s', m (fresh a) s1 = Val tt s' /\ kept V s1 s' /\ shape s' (l1 ++ (fresh a, v) :: l2)) ->
  exists s', (q <- new v;; m q;; ret q) s = Val (fresh a) s' /\
    repr s' {| items := l1 ++ (fresh a, v) :: l2; loose := loose a; gone := gone a; fresh := S (fresh a) |}.
Proof.
  intros R E H. destruct (new_ok s a v R) as (s1 & E1 & R1). rewrite (run V _ _ _ _ _ E1).
  assert (NL : ~ In (fresh a) (names (loose a))).
  { intro X. assert (fresh a < fresh a); [|lia]. apply (r_below _ _ R). rewrite names_app. apply in_or_app. now right. }
  destruct (put_ok s1 (extra a v) (fresh a) v (m (fresh a)) l1 l2) as (s2 & E2 & R2); auto.
  { cbn. rewrite lookup_cons. now rewrite Nat.eqb_refl. }
  exists s2. rewrite (run V _ _ _ _ _ E2). split; [reflexivity|].
  assert (D : drop (fresh a) ((fresh a, v) :: loose a) = loose a) by (cbn; rewrite Nat.eqb_refl; cbn; now apply drop_none).
  cbn [extra items loose gone fresh] in R2. now rewrite D in R2.
Qed.

Lemma valid_spot p a : valid_pos p a = true -> items a = [] \/
  exists l1 w l2, items a = l1 ++ (p, w) :: l2 /\ forall x, behind p x (items a) = l1 ++ (p, w) :: x :: l2.
Proof.
  unfold valid_pos. destruct (items a) as [|y l] eqn:E; [now left|]. intro H. right.
  destruct (has_lookup _ _ H) as (w & L). destruct (split_at _ _ _ L) as (l1 & l2 & E2 & N).
  exists l1, w, l2. split; [exact E2|]. intro x. rewrite E2. now apply behind_split.
Qed.

(** Taking a node out. *)
Lemma out_facts s a p v : repr s a -> lookup p (items a) = Some v ->
  exists l1 l2, items a = l1 ++ (p, v) :: l2 /\ drop p (items a) = l1 ++ l2.
Proof.
  intros R L. destruct (split_at _ _ _ L) as (l1 & l2 & E & _). exists l1, l2. split; [exact E|].
  rewrite E. apply drop_split. rewrite <- E. apply (s_nodup _ _ (r_shape _ _ R)).
Qed.
Lemma remove_repr s a p v : repr s a -> lookup p (items a) = Some v ->
  exists s', remove_node p s = Val p s' /\
    repr s' {| items := drop p (items a); loose := (p, v) :: loose a; gone := gone a; fresh := fresh a |}.
Proof.
  intros R L. destruct (out_facts s a p v R L) as (l1 & l2 & E & ED).
  pose proof (r_shape _ _ R) as SH. rewrite E in SH. destruct (shape_remove _ _ _ _ _ SH) as (s' & X & K & SH').
  exists s'. split; [exact X|]. apply (repr_items s a); auto; rewrite ED; auto.
  rewrite E. rewrite <- !app_assoc. cbn. apply Permutation_app_head. apply Permutation_sym, Permutation_middle.
Qed.
Lemma delete_repr s a p v : repr s a -> lookup p (items a) = Some v ->
  exists s', delete p s = Val tt s' /\
    repr s' {| items := drop p (items a); loose := loose a; gone := v :: gone a; fresh := fresh a |}.
Proof.
  intros R L. destruct (remove_repr s a p v R L) as (s1 & E1 & R1). unfold delete. rewrite (run V _ _ _ _ _ E1).
  pose proof (r_nodup _ _ R1) as ND. cbn in ND.
  assert (PM : Permutation (drop p (items a) ++ (p, v) :: loose a) ((p, v) :: drop p (items a) ++ loose a))
    by (apply Permutation_sym, Permutation_middle).
  assert (ND' : NoDup (p :: names (drop p (items a) ++ loose a))).
  { exact (Permutation_NoDup (Permutation_map fst PM) ND). }
  inversion ND' as [|? ? NI ND'']; subst.
  assert (VX : forall q, vl V s1 q = lookup q ((p, v) :: drop p (items a) ++ loose a)).
  { intro q. rewrite (r_vl _ _ R1). cbn. symmetry. now apply lookup_perm. }
  destruct (release_ok s1 p v) as (s2 & E2 & F2 & B2 & G2 & V2 & N2 & P2).
  { rewrite VX, lookup_cons. now rewrite Nat.eqb_refl. }
  exists s2. split; [exact E2|]. pose proof (r_shape _ _ R1) as SH. cbn in SH. constructor; cbn.
  - assert (NP : forall q, In q (names (drop p (items a))) -> q <> p).
    { intros q Hq ->. apply NI. rewrite names_app. apply in_or_app. now left. }
    constructor.
    + intros x y H. rewrite N2, P2.
      * now apply (s_ring _ _ SH).
      * apply NP. apply circ_rev in H. unfold circ in H. apply in_rev. destruct (rev (names (drop p (items a)))); [destruct H|].
        now apply consec_fst in H.
      * apply NP. unfold circ in H. destruct (names (drop p (items a))); [destruct H|]. now apply consec_fst in H.
    + apply (s_nodup _ _ SH).
    + rewrite F2. apply (s_first _ _ SH).
    + intros q u I. rewrite V2. destruct (Nat.eqb_spec q p) as [->|]; [|now apply (s_vals _ _ SH)].
      exfalso. apply (NP p); auto. apply (in_map fst) in I. exact I.
  - exact ND''.
  - intro q. rewrite V2, VX, lookup_cons. rewrite Nat.eqb_sym. destruct (Nat.eqb_spec p q) as [<-|]; auto.
    symmetry. now apply lookup_none.
  - rewrite B2. apply (r_brk _ _ R1).
  - rewrite G2. f_equal. apply (r_freed _ _ R1).
  - intros q Hq. apply (r_below _ _ R1). cbn.
    apply (Permutation_in (l := map fst ((p, v) :: drop p (items a) ++ loose a))); [apply (Permutation_map fst), Permutation_sym; exact PM|].
    right. exact Hq.
Qed.
Lemma empty_repr s a n : repr s a -> length (items a) <= n ->
  exists s', empty n s = Val tt s' /\
    repr s' {| items := []; loose := loose a; gone := rev (map snd (items a)) ++ gone a; fresh := fresh a |}.
Proof.
  intros R H. pose proof (r_shape _ _ R) as SH. unfold empty. rewrite (run V _ _ _ _ _ (get_first_run s _ eq_refl)).
  destruct (items a) as [|x l] eqn:E.
  - rewrite (shape_first_nil _ SH). exists s. split; [reflexivity|].
    destruct R as [R1 R2 R3 R4 R5 R6]. rewrite E in *. now constructor.
  - rewrite (shape_first _ _ _ SH).
    assert (NF : ~ In (fst x) (names l)) by (pose proof (s_nodup _ _ SH) as ND; now inversion ND).
    destruct (empty_ok (fst x) l s x n) as (s1 & E1 & F1 & B1 & G1 & V1); auto.
    + now apply (shape_first _ _ _ SH).
    + apply (s_nodup _ _ SH).
    + apply (s_vals _ _ SH).
    + intros p q I. now apply (s_ring _ _ SH) in I.
    + rewrite (run V _ _ _ _ _ E1). destruct (set_first_ok V s1 None) as (s2 & E2 & K2 & F2 & N2 & P2).
      exists s2. split; [exact E2|]. destruct K2 as (K1 & K2 & K3).
      pose proof (r_nodup _ _ R) as ND. rewrite E, names_app in ND.
      assert (NDL : NoDup (names (loose a))).
      { clear - ND. induction (names (x :: l)) as [|z r IH]; [exact ND|]. inversion ND; auto. }
      constructor; cbn [items loose gone fresh app].
      * constructor; cbn; auto; [intros ? ? []|constructor|intros ? ? []].
      * exact NDL.
      * intro q. rewrite K1, V1, (r_vl _ _ R), E.
        destruct (existsb (Nat.eqb q) (names (x :: l))) eqn:X.
        -- apply existsb_exists in X as (q' & I & X). apply Nat.eqb_eq in X. subst q'.
           symmetry. apply lookup_none. intro Y. apply in_split in I as (n1 & n2 & I). rewrite I in ND.
           rewrite <- app_assoc in ND. cbn in ND. apply NoDup_remove_2 in ND. apply ND. rewrite !in_app_iff. auto.
        -- assert (NI : ~ In q (names (x :: l))).
           { intro Y. assert (existsb (Nat.eqb q) (names (x :: l)) = true); [|congruence].
             apply existsb_exists. exists q. split; auto. apply Nat.eqb_refl. }
           clear - NI. induction (x :: l) as [|[r u] m IH]; [reflexivity|]. cbn [app]. rewrite lookup_cons.
           destruct (Nat.eqb_spec r q) as [->|]; [exfalso; apply NI; now left|]. apply IH. intro. apply NI. now right.
      * rewrite K2, B1. apply (r_brk _ _ R).
      * rewrite K3, G1. f_equal. apply (r_freed _ _ R).
      * intros p Hp. apply (r_below _ _ R). rewrite names_app. apply in_or_app. now right.
Qed.

Lemma find_node_ok s a v n : repr s a -> length (items a) <= n ->
  find_node eq n v s = Val (option_map fst (found eq v a)) s.
Proof.
  intros R H. unfold find_node, found. rewrite (run V _ _ _ _ _ (get_first_run s _ eq_refl)).
  pose proof (r_shape _ _ R) as SH. destruct (items a) as [|x l]; [now rewrite (shape_first_nil _ SH)|].
  rewrite (shape_first _ _ _ SH). apply (find_ok s v l []); auto.
Qed.
Lemma found_lookup s a v x : repr s a -> found eq v a = Some x -> lookup (fst x) (items a) = Some (snd x).
Proof.
  intros R F. apply find_some in F as [I _]. apply in_lookup; [apply (s_nodup _ _ (r_shape _ _ R))|]. now destruct x.
Qed.
Lemma repr_eta s a : repr s a -> repr s {| items := items a; loose := loose a; gone := gone a; fresh := fresh a |}.
Proof. intros []. now constructor. Qed.

(** Looking at the last node, the list being unchanged. *)
Lemma last_spec s a : repr s a -> last_node s = Val (option_map fst (last_item (items a))) s.
Proof.
  intro R. pose proof (r_shape _ _ R) as SH. unfold last_item.
  destruct (rev (items a)) as [|x r] eqn:E.
  - assert (items a = []) as X by (rewrite <- (rev_involutive (items a)), E; reflexivity). rewrite X in SH. now apply shape_last_nil.
  - assert (items a = rev r ++ [x]) as X by (rewrite <- (rev_involutive (items a)), E; reflexivity). rewrite X in SH.
    now apply (shape_last s (rev r)).
Qed.
Lemma last_item_nil (a : seq V) : last_item (items a) = None -> items a = [].
Proof. unfold last_item. destruct (rev (items a)) eqn:E; [|discriminate]. intros _. now rewrite <- (rev_involutive (items a)), E. Qed.
Lemma last_item_some (a : seq V) x : last_item (items a) = Some x -> exists l, items a = l ++ [x].
Proof.
  unfold last_item. destruct (rev (items a)) as [|y r] eqn:E; [discriminate|]. intro H. injection H as ->.
  exists (rev r). now rewrite <- (rev_involutive (items a)), E.
Qed.
Lemma add_at_end s l e v : shape s l -> ~ In e (names l) -> vl V s e = Some v ->
  exists s', add (option_map fst (last_item l)) e s = Val tt s' /\ kept V s s' /\ shape s' (l ++ [(e, v)]).
Proof.
  intros SH N E. unfold last_item. destruct (rev l) as [|[p w] r] eqn:X.
  - assert (l = []) as -> by (rewrite <- (rev_involutive l), X; reflexivity). now apply shape_add_nil.
  - assert (l = rev r ++ [(p, w)]) as -> by (rewrite <- (rev_involutive l), X; reflexivity).
    rewrite <- app_assoc. now apply shape_add.
Qed.

(** The new node at the end. *)
Lemma insert_end_repr s a v : repr s a -> exists s', insert (option_map fst (last_item (items a))) v s = Val (fresh a) s' /\
  repr s' {| items := items a ++ [(fresh a, v)]; loose := loose a; gone := gone a; fresh := S (fresh a) |}.
Proof.
  intro R. apply (made_ok s a v (fun q => add (option_map fst (last_item (items a))) q) (items a) []); auto; [now rewrite app_nil_r|].
  intros s1 R1 NI VE. apply (add_at_end s1 (items a)); auto. apply (r_shape _ _ R1).
Qed.
Lemma insert_front_repr s a v : repr s a -> items a <> [] -> exists s', insert_front v s = Val (fresh a) s' /\
  repr s' {| items := (fresh a, v) :: items a; loose := loose a; gone := gone a; fresh := S (fresh a) |}.
Proof.
  intros R NN. unfold insert_front, insert. rewrite (run V _ _ _ _ _ (last_spec _ _ R)).
  destruct (last_item (items a)) as [[p w]|] eqn:L; [|now apply last_item_nil in L].
  destruct (last_item_some _ _ L) as (l & E). cbn [option_map fst].
  destruct (made_ok s a v (fun q => add_front q) [] (items a) R eq_refl) as (s' & X & R').
  { intros s1 R1 NI VE. apply shape_add_front; auto. apply (r_shape _ _ R1). }
  exists s'. split; [|exact R']. unfold add_front in X.
  destruct (new_ok s a v R) as (s1 & E1 & R1). unfold bind in X |- *. rewrite E1 in X |- *.
  rewrite (last_spec _ _ R1) in X. cbn [items extra] in X. rewrite L in X. cbn [option_map fst] in X.
  destruct (add (Some p) (fresh a) s1) as [[] s2| |]; try discriminate. cbn [deref ret] in X |- *. unfold ret in X |- *.
  destruct (rnext p s2) as [q s3| |]; try discriminate. destruct (set_first (Some q) s3) as [[] s4| |]; try discriminate. exact X.
Qed.

Lemma insert_sort_repr (O : ordering V le lt gt) s a v n : repr s a -> length (items a) <= n ->
  exists r a', meaning le lt eq (OInsertSort v) a = Some (r, a') /\ exists s', call le lt gt eq n (OInsertSort v) s = Val r s' /\ repr s' a'.
Proof.
  intros R H. cbn [meaning call]. unfold insert_sort. pose proof (last_spec _ _ R) as LS.
  destruct (last_item (items a)) as [[p w]|] eqn:L; cbn [option_map fst snd] in *.
  - destruct (last_item_some _ _ L) as (l & E). unfold made. 
    assert (VP : rval p s = Val w s).
    { apply (shape_val _ _ _ _ (r_shape _ _ R)). rewrite E. apply in_or_app. right. now left. }
    destruct (le w v) eqn:LE.
    + eexists _, _. split; [reflexivity|]. destruct (insert_end_repr s a v R) as (s' & X & R'). rewrite L in X. cbn [option_map fst] in X.
      exists s'. split; [|exact R'].
      assert (Y : insert_sort le lt n v s = Val (fresh a) s').
      { unfold insert_sort. rewrite (run V _ _ _ _ _ LS), (run V _ _ _ _ _ VP), LE. exact X. }
      unfold insert_sort in Y. now rewrite (run V _ _ _ _ _ Y).
    + eexists _, _. split; [reflexivity|]. destruct (items a) as [|[f u] r] eqn:EI; [destruct l; discriminate|].
      pose proof (r_shape _ _ R) as SH. rewrite EI in SH.
      assert (FX : first s = Some f) by apply (shape_first _ _ _ SH).
      assert (VF : rval f s = Val u s) by (apply (shape_val _ _ _ _ SH); now left).
      destruct (lt v u) eqn:LU.
      * destruct (insert_front_repr s a v R) as (s' & X & R'); [now rewrite EI|].
        exists s'. split.
        { assert (Y : insert_sort le lt n v s = Val (fresh a) s').
          { unfold insert_sort. rewrite (run V _ _ _ _ _ LS), (run V _ _ _ _ _ VP), LE, (run V _ _ _ _ _ (get_first_run s _ FX)).
            rewrite (run V _ _ _ _ _ VF), LU. exact X. }
          unfold insert_sort in Y. now rewrite (run V _ _ _ _ _ Y). }
        cbn [in_order snd]. rewrite LU. now rewrite EI in R'.
      * destruct (seek_spot s v n (f, u) r SH LU ltac:(cbn in H; lia)) as (l1 & [q z] & l2 & EQ & G & IO). cbn [fst] in *.
        destruct (made_ok s a v (fun e => add (Some q) e) (l1 ++ [(q, z)]) l2) as (s' & X & R'); auto.
        { rewrite EI, EQ. now rewrite <- app_assoc. }
        { intros s1 R1 NI VE. rewrite <- app_assoc. apply shape_add; auto.
          - pose proof (r_shape _ _ R1) as S1. cbn in S1. now rewrite EI, EQ in S1.
          - now rewrite EI, EQ in NI. }
        exists s'. split.
        -- assert (Y : insert_sort le lt n v s = Val (fresh a) s').
           { unfold insert_sort. rewrite (run V _ _ _ _ _ LS), (run V _ _ _ _ _ VP), LE, (run V _ _ _ _ _ (get_first_run s _ FX)).
             rewrite (run V _ _ _ _ _ VF), LU, (run V _ _ _ _ _ G). exact X. }
           unfold insert_sort in Y. now rewrite (run V _ _ _ _ _ Y).
        -- rewrite IO. rewrite <- app_assoc in R'. exact R'.
  - apply last_item_nil in L. unfold made. eexists _, _. split; [reflexivity|].
    destruct (insert_end_repr s a v R) as (s' & X & R'). rewrite L in X, R'. cbn [option_map last_item rev hd_error app] in X, R'.
    pose proof (r_shape _ _ R) as SH. rewrite L in SH.
    exists s'. split; [|exact R'].
    assert (Y : insert_sort le lt n v s = Val (fresh a) s').
    { unfold insert_sort. rewrite (run V _ _ _ _ _ LS), (run V _ _ _ _ _ (get_first_run s _ (shape_first_nil _ SH))). exact X. }
    unfold insert_sort in Y. now rewrite (run V _ _ _ _ _ Y).
Qed.

Lemma sort_repr (O : ordering V le lt gt) s a n : repr s a -> length (items a) <= n ->
  exists s', sort lt gt n n s = Val tt s' /\ repr s' (put_items a (sorted_items lt (items a))).
Proof.
  intros R H. pose proof (r_shape _ _ R) as SH. unfold sort. rewrite (run V _ _ _ _ _ (get_first_run s _ eq_refl)).
  destruct (items a) as [|x l] eqn:E.
  - rewrite (shape_first_nil _ SH). exists s. split; [reflexivity|]. destruct R as [R1 R2 R3 R4 R5 R6]. rewrite E in *. now constructor.
  - rewrite (shape_first _ _ _ SH).
    destruct (sort_ok O l s n n [] x SH) as (s' & X & K & SH'); [intros ? []|cbn in H; lia|exact H|].
    exists s'. split; [exact X|]. apply (repr_items s a); auto. rewrite E. apply Permutation_app_tail.
    unfold sorted_items. cbn [fold_left in_order app].
    assert (A : forall l acc, Permutation (fold_left (fun acc y => in_order lt y acc) l acc) (acc ++ l)).
    { clear. induction l as [|y l IH]; intro acc; [now rewrite app_nil_r|]. cbn. rewrite IH.
      destruct (in_order_split y acc) as (l1 & l2 & -> & -> & _). rewrite <- !app_assoc. cbn.
      apply Permutation_app_head. apply Permutation_middle. }
    rewrite A. reflexivity.
Qed.

(** One call. *)
Theorem call_ok (O : ordering V le lt gt) o n s a r a' : repr s a -> length (items a) <= n ->
  meaning le lt eq o a = Some (r, a') -> exists s', call le lt gt eq n o s = Val r s' /\ repr s' a'.
Proof.
  intros R H M. pose proof (r_shape _ _ R) as SH. destruct o; cbn [meaning] in M; cbn [call].
  - (* insert *)
    destruct (valid_pos pos a) eqn:VP; [|discriminate]. unfold made in M. injection M as <- <-.
    destruct (valid_spot _ _ VP) as [E|(l1 & w & l2 & E & B)].
    + destruct (made_ok s a v (fun e => add (Some pos) e) [] (items a) R eq_refl) as (s' & X & R').
      { intros s1 R1 NI VE. pose proof (r_shape _ _ R1) as S1. cbn in S1. rewrite E in S1 |- *. now apply shape_add_nil. }
      exists s'. split; [unfold insert; now rewrite (run V _ _ _ _ _ X)|]. rewrite E in *. exact R'.
    + destruct (made_ok s a v (fun e => add (Some pos) e) (l1 ++ [(pos, w)]) l2 R) as (s' & X & R').
      { rewrite E. now rewrite <- app_assoc. }
      { intros s1 R1 NI VE. rewrite <- app_assoc. pose proof (r_shape _ _ R1) as S1. cbn in S1. rewrite E in S1, NI. now apply shape_add. }
      exists s'. split; [unfold insert; now rewrite (run V _ _ _ _ _ X)|]. rewrite B. rewrite <- app_assoc in R'. exact R'.
  - unfold made in M. injection M as <- <-. destruct (insert_end_repr s a v R) as (s' & X & R'). exists s'. split; [|exact R'].
    unfold insert_end. unfold bind. rewrite (last_spec _ _ R). now rewrite X.
  - destruct (items a) eqn:E; [discriminate|]. rewrite <- E in M. unfold made in M. injection M as <- <-.
    destruct (insert_front_repr s a v R) as (s' & X & R'); [congruence|]. exists s'. split; [now rewrite (run V _ _ _ _ _ X)|exact R'].
  - destruct (insert_sort_repr O s a v n R H) as (r0 & a0 & M0 & s' & X & R'). cbn [meaning] in M0. rewrite M in M0. injection M0 as <- <-. eauto.
  - (* add *)
    destruct (valid_pos pos a) eqn:VP; [|discriminate]. unfold back in M. destruct (lookup e (loose a)) as [v|] eqn:L; [|discriminate].
    injection M as <- <-. destruct (valid_spot _ _ VP) as [E|(l1 & w & l2 & E & B)].
    + destruct (put_ok s a e v (add (Some pos) e) [] (items a) R L eq_refl) as (s' & X & R').
      { intros NI VE. rewrite E in SH |- *. now apply shape_add_nil. }
      exists s'. split; [now rewrite (run V _ _ _ _ _ X)|]. rewrite E in *. exact R'.
    + destruct (put_ok s a e v (add (Some pos) e) (l1 ++ [(pos, w)]) l2 R L) as (s' & X & R').
      { rewrite E. now rewrite <- app_assoc. }
      { intros NI VE. rewrite <- app_assoc. rewrite E in SH, NI. now apply shape_add. }
      exists s'. split; [now rewrite (run V _ _ _ _ _ X)|]. rewrite B. rewrite <- app_assoc in R'. exact R'.
  - unfold back in M. destruct (lookup e (loose a)) as [v|] eqn:L; [|discriminate]. injection M as <- <-.
    destruct (put_ok s a e v (add_end e) (items a) [] R L) as (s' & X & R'); [now rewrite app_nil_r| |].
    { intros NI VE. unfold add_end. rewrite (run V _ _ _ _ _ (last_spec _ _ R)). now apply add_at_end. }
    exists s'. split; [now rewrite (run V _ _ _ _ _ X)|exact R'].
  - destruct (items a) eqn:E; [discriminate|]. rewrite <- E in *. unfold back in M.
    destruct (lookup e (loose a)) as [v|] eqn:L; [|discriminate]. injection M as <- <-.
    destruct (put_ok s a e v (add_front e) [] (items a) R L eq_refl) as (s' & X & R').
    { intros NI VE. apply shape_add_front; auto. congruence. }
    exists s'. split; [now rewrite (run V _ _ _ _ _ X)|exact R'].
  - unfold back in M. destruct (lookup e (loose a)) as [v|] eqn:L; [|discriminate]. injection M as <- <-.
    destruct (in_order_split (e, v) (items a)) as (l1 & l2 & E & IO & _ & _).
    destruct (put_ok s a e v (add_sort lt n e) l1 l2 R L E) as (s' & X & R').
    { intros NI VE. rewrite <- IO. now apply shape_add_sort. }
    exists s'. split; [now rewrite (run V _ _ _ _ _ X)|]. rewrite IO. exact R'.
  - injection M as <- <-. destruct (sort_repr O s a n R H) as (s' & X & R'). exists s'. split; [now rewrite (run V _ _ _ _ _ X)|exact R'].
  - destruct (lookup pos (items a)) as [v|] eqn:L; [|discriminate]. injection M as <- <-.
    destruct (delete_repr s a pos v R L) as (s' & X & R'). exists s'. split; [now rewrite (run V _ _ _ _ _ X)|exact R'].
  - unfold delete_value. pose proof (find_node_ok s a v n R H) as F. destruct (found eq v a) as [x|] eqn:FX; cbn [option_map] in F; injection M as <- <-.
    + destruct (delete_repr s a (fst x) (snd x) R (found_lookup s a v x R FX)) as (s' & X & R').
      exists s'. split; [|exact R']. unfold bind. now rewrite F, X.
    + exists s. split; [|exact R]. unfold bind. now rewrite F.
  - destruct (lookup pos (items a)) as [v|] eqn:L; [|discriminate]. injection M as <- <-.
    destruct (remove_repr s a pos v R L) as (s' & X & R'). exists s'. split; [now rewrite (run V _ _ _ _ _ X)|exact R'].
  - unfold remove_value. pose proof (find_node_ok s a v n R H) as F. destruct (found eq v a) as [x|] eqn:FX; cbn [option_map] in F; injection M as <- <-.
    + destruct (remove_repr s a (fst x) (snd x) R (found_lookup s a v x R FX)) as (s' & X & R').
      exists s'. split; [unfold bind; now rewrite F, X|]. destruct x; exact R'.
    + exists s. split; [|exact R]. unfold bind. now rewrite F.
  - injection M as <- <-. destruct (empty_repr s a n R H) as (s' & X & R'). exists s'. split; [now rewrite (run V _ _ _ _ _ X)|exact R'].
  - injection M as <- <-. exists s. split; [|exact R]. unfold is_empty, bind, get_first, ret. rewrite (s_first _ _ SH).
    destruct (items a); reflexivity.
  - injection M as <- <-. exists s. split; [|exact R]. unfold count. unfold bind, get_first, ret.
    destruct (items a) as [|x l] eqn:E; [now rewrite (shape_first_nil _ SH)|]. rewrite (shape_first _ _ _ SH).
    rewrite (count_ok s l [] x n 0 SH H). reflexivity.
  - injection M as <- <-. exists s. split; [|exact R]. unfold print. unfold bind, get_first, ret.
    destruct (items a) as [|x l] eqn:E; [now rewrite (shape_first_nil _ SH)|]. rewrite (shape_first _ _ _ SH).
    rewrite (print_ok s l [] x n [] SH H). reflexivity.
  - injection M as <- <-. exists s. split; [|exact R]. unfold bind. now rewrite (find_node_ok s a v n R H).
  - injection M as <- <-. exists s. split; [|exact R]. unfold bind, get_first. now rewrite (s_first _ _ SH).
  - injection M as <- <-. exists s. split; [|exact R]. unfold bind. now rewrite (last_spec _ _ R).
  - destruct (pred_of pos (map fst (items a))) as [q|] eqn:P; [|discriminate]. injection M as <- <-. exists s. split; [|exact R].
    apply pred_in in P; [|apply (s_nodup _ _ SH)]. apply (s_ring _ _ SH) in P as [_ P].
    unfold bind. now rewrite (rprev_ok V _ _ _ P).
  - destruct (succ_of pos (map fst (items a))) as [q|] eqn:P; [|discriminate]. injection M as <- <-. exists s. split; [|exact R].
    apply succ_in in P; [|apply (s_nodup _ _ SH)]. apply (s_ring _ _ SH) in P as [P _].
    unfold bind. now rewrite (rnext_ok V _ _ _ P).
  - destruct (lookup pos (items a ++ loose a)) as [v|] eqn:L; [|discriminate]. injection M as <- <-. exists s. split; [|exact R].
    rewrite <- (r_vl _ _ R) in L. unfold bind. now rewrite (rval_ok V _ _ _ L).
Qed.

Lemma fresh_step o a r a' : meaning le lt eq o a = Some (r, a') -> fresh a' <= S (fresh a).
Proof.
  destruct o; cbn [meaning]; unfold made, back; intro M;
  repeat match type of M with (match ?x with _ => _ end) = _ => destruct x; try discriminate end;
  injection M as <- <-; cbn; lia.
Qed.
Theorem calls_ok (O : ordering V le lt gt) os : forall n s a rs a', repr s a -> fresh a + length os <= n ->
  meanings le lt eq os a = Some (rs, a') -> exists s', calls le lt gt eq n os s = Val rs s' /\ repr s' a'.
Proof.
  induction os as [|o os IH]; intros n s a rs a' R H M; cbn [meanings calls] in *.
  - injection M as <- <-. exists s. split; [reflexivity|exact R].
  - destruct (meaning le lt eq o a) as [[r b]|] eqn:E; [|discriminate].
    destruct (meanings le lt eq os b) as [[rs' c]|] eqn:E2; [|discriminate]. injection M as <- <-.
    cbn in H. pose proof (length_below s a R) as LB. pose proof (fresh_step _ _ _ _ E) as FS.
    destruct (call_ok O o n s a r b R ltac:(lia) E) as (s1 & X & R1). rewrite (run V _ _ _ _ _ X).
    destruct (IH n s1 b rs' c R1 ltac:(lia) E2) as (s2 & X2 & R2). rewrite (run V _ _ _ _ _ X2).
    exists s2. split; [reflexivity|exact R2].
Qed.
Lemma create_repr : repr create start.
Proof. constructor; cbn; auto; [constructor; cbn; auto; [intros ? ? []|constructor|intros ? ? []]|constructor|intros ? []]. Qed.
End Refine.
