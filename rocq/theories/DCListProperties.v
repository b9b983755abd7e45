(** C34: the circular doubly linked list behaves as a sequence. *)
From Coq Require Import List Bool Arith Lia Permutation Sorted.
From Verif Require Import DCListModel DCListSpec DCListProofs DCListHeap DCListRefine.
Import ListNotations.

(* ------------------------------------------------------------------------- *)
(** * Every history                                                           *)

(** Whatever calls a program makes, as long as it only names nodes that are where it says they are,
    every answer is the one the sequence gives; the first pointer, the links in both directions,
    the nodes allocated and their values, and the values released are those of the sequence. *)
Theorem C34_sequences (V : Type) (le lt gt eq : V -> V -> bool) os n rs a :
  ordering V le lt gt -> length os <= n -> meanings le lt eq os start = Some (rs, a) ->
  exists s, calls le lt gt eq n os create = Val rs s /\
    first s = hd_error (map fst (items a)) /\
    (forall p c, heap s p = Some c -> has p (items a) = true ->
       next c = succ_of p (map fst (items a)) /\ prev c = pred_of p (map fst (items a))) /\
    (forall p, option_map val (heap s p) = lookup p (items a ++ loose a)) /\
    freed s = gone a.
Proof.
  intros O L M. destruct (calls_ok V le lt gt eq O os n create start rs a (create_repr V) L M) as (s & X & R).
  exists s. split; [exact X|]. pose proof (r_shape _ _ _ R) as SH. split; [apply (s_first _ _ _ SH)|].
  split; [|split; [|apply (r_freed _ _ _ R)]].
  - intros p c E H. apply existsb_exists in H as (x & I & E2). apply Nat.eqb_eq in E2. subst p.
    apply (in_map fst) in I. pose proof (s_nodup _ _ _ SH) as ND. unfold names in ND.
    destruct (map fst (items a)) as [|y r] eqn:EL; [destruct I|]. split.
    + destruct (after_some (fst x) (y :: r) y I) as (q & Q). unfold succ_of. rewrite Q.
      assert (In (fst x, q) (circ (y :: r))) as P by (apply succ_in; auto).
      pose proof (s_ring _ _ _ SH (fst x) q) as G. unfold names in G. rewrite EL in G. apply G in P as [P _]. unfold nx in P. now rewrite E in P.
    + assert (exists q, pred_of (fst x) (y :: r) = Some q) as (q & Q).
      { unfold pred_of, succ_of. assert (I' : In (fst x) (rev (y :: r))) by now apply -> in_rev.
        destruct (rev (y :: r)) as [|z t]; [destruct I'|]. now apply after_some. }
      rewrite Q. apply pred_in in Q; auto. pose proof (s_ring _ _ _ SH q (fst x)) as G. unfold names in G. rewrite EL in G.
      apply G in Q as [_ P]. unfold pv in P. now rewrite E in P.
  - intro p. rewrite <- (r_vl _ _ _ R). unfold vl. now destruct (heap s p).
Qed.

(** The values a history handed over. *)
Definition inserted {V} (o : op V) : list V :=
  match o with OInsert _ v | OInsertEnd v | OInsertFront v | OInsertSort v => [v] | _ => [] end.

Lemma drop_perm {V} p (v : V) l : NoDup (map fst l) -> lookup p l = Some v -> Permutation l ((p, v) :: drop p l).
Proof.
  intros ND L. destruct (split_at V _ _ _ L) as (l1 & l2 & -> & _). rewrite (drop_split V); auto.
  apply Permutation_sym, Permutation_middle.
Qed.
Lemma behind_perm {V} p (x : nat * V) l : Permutation (x :: l) (behind p x l).
Proof.
  induction l as [|y l IH]; [reflexivity|]. cbn. destruct (fst y =? p); [apply perm_swap|]. rewrite perm_swap. now constructor.
Qed.
Lemma in_order_perm {V} lt (x : nat * V) l : Permutation (x :: l) (in_order lt x l).
Proof.
  induction l as [|y l IH]; [reflexivity|]. cbn. destruct (lt (snd x) (snd y)); [reflexivity|]. rewrite perm_swap. now constructor.
Qed.
Lemma sorted_perm {V} lt (l : list (nat * V)) : Permutation l (sorted_items lt l).
Proof.
  unfold sorted_items. enough (A : forall acc, Permutation (acc ++ l) (fold_left (fun acc y => in_order lt y acc) l acc)) by apply (A []).
  induction l as [|y l IH]; intro acc; [now rewrite app_nil_r|]. cbn. rewrite <- IH.
  rewrite <- (in_order_perm lt y acc). cbn. apply Permutation_sym, Permutation_middle.
Qed.

(** The list never loses a value and never releases one twice: every value handed over is in the
    list, in a node the program took out and holds, or was released, and each exactly once.
    The names of the nodes in the list and held are all different. *)
Definition whole {V} (vs : list V) (a : seq V) : Prop :=
  Permutation vs (map snd (items a ++ loose a) ++ gone a) /\ NoDup (map fst (items a ++ loose a)) /\
  (forall p, In p (map fst (items a ++ loose a)) -> p < fresh a).

Lemma whole_perm {V} vs a l b : whole vs a -> Permutation (l ++ b) (items a ++ loose a) ->
  @whole V vs {| items := l; loose := b; gone := gone a; fresh := fresh a |}.
Proof.
  intros (A & B & C) P. split; [|split]; cbn.
  - rewrite A. apply Permutation_app_tail. now apply Permutation_map, Permutation_sym.
  - exact (Permutation_NoDup (Permutation_map fst (Permutation_sym P)) B).
  - intros p H. apply C. exact (Permutation_in _ (Permutation_map fst P) H).
Qed.
Lemma whole_made {V} vs a v l : whole vs a -> Permutation ((fresh a, v) :: items a) l ->
  @whole V (vs ++ [v]) {| items := l; loose := loose a; gone := gone a; fresh := S (fresh a) |}.
Proof.
  intros (A & B & C) P.
  assert (P2 : Permutation ((fresh a, v) :: items a ++ loose a) (l ++ loose a)).
  { change ((fresh a, v) :: items a ++ loose a) with (((fresh a, v) :: items a) ++ loose a). now apply Permutation_app_tail. }
  split; [|split]; cbn.
  - rewrite <- P2. cbn. rewrite A. apply Permutation_sym, Permutation_cons_append.
  - apply (Permutation_NoDup (Permutation_map fst P2)). cbn. constructor; [|exact B]. intro H. apply C in H. lia.
  - intros p H. apply (Permutation_in _ (Permutation_sym (Permutation_map fst P2))) in H as [<-|H]; [cbn; lia|]. apply C in H. lia.
Qed.
Lemma whole_gone {V} vs a p v : whole vs a -> lookup p (items a) = Some v ->
  @whole V vs {| items := drop p (items a); loose := loose a; gone := v :: gone a; fresh := fresh a |}.
Proof.
  intros (A & B & C) L.
  assert (NI : NoDup (map fst (items a))).
  { rewrite map_app in B. clear - B. induction (map fst (items a)) as [|x l IH]; [constructor|].
    inversion B; subst. constructor; auto. intro. apply H1, in_or_app. now left. }
  pose proof (drop_perm p v (items a) NI L) as P.
  assert (P2 : Permutation (items a ++ loose a) ((p, v) :: drop p (items a) ++ loose a)).
  { change ((p, v) :: drop p (items a) ++ loose a) with (((p, v) :: drop p (items a)) ++ loose a). now apply Permutation_app_tail. }
  pose proof (Permutation_NoDup (Permutation_map fst P2) B) as B2. cbn in B2. inversion B2; subst. split; [|split]; cbn; auto.
  - rewrite A. rewrite P2. cbn. apply Permutation_middle.
  - intros q H. apply C. apply (Permutation_in _ (Permutation_sym (Permutation_map fst P2))). now right.
Qed.
Lemma whole_empty {V} vs a : whole vs a -> @whole V vs {| items := []; loose := loose a; gone := rev (map snd (items a)) ++ gone a; fresh := fresh a |}.
Proof.
  intros (A & B & C). split; [|split]; cbn.
  - rewrite A, map_app, <- app_assoc. rewrite (app_assoc (map snd (loose a))).
    rewrite (Permutation_app_comm (map snd (loose a)) (rev _)). rewrite <- app_assoc. apply Permutation_app_tail, Permutation_rev.
  - rewrite map_app in B. clear - B. induction (map fst (items a)); auto. inversion B; auto.
  - intros p H. apply C. rewrite map_app. apply in_or_app. now right.
Qed.
Lemma loose_perm {V} a p (v : V) l : NoDup (map fst (items a ++ loose a)) -> lookup p (loose a) = Some v ->
  Permutation ((p, v) :: items a) l -> Permutation (l ++ drop p (loose a)) (items a ++ loose a).
Proof.
  intros B L P. assert (NI : NoDup (map fst (loose a))).
  { rewrite map_app in B. clear - B. induction (map fst (items a)); auto. inversion B; auto. }
  rewrite <- P. cbn. rewrite (drop_perm p v (loose a) NI L) at 2. apply Permutation_middle.
Qed.
Lemma meaning_whole {V} le lt eq o (a : seq V) r a' vs : whole vs a -> meaning le lt eq o a = Some (r, a') -> whole (vs ++ inserted o) a'.
Proof.
  intros W M. pose proof (proj1 (proj2 W)) as ND.
  assert (NI : NoDup (map fst (items a))).
  { rewrite map_app in ND. clear - ND. induction (map fst (items a)) as [|x l IH]; [constructor|].
    inversion ND; subst. constructor; auto. intro. apply H1, in_or_app. now left. }
  assert (OUT : forall p v, lookup p (items a) = Some v -> Permutation (drop p (items a) ++ (p, v) :: loose a) (items a ++ loose a)).
  { intros p v L. rewrite (drop_perm p v (items a) NI L) at 2. apply Permutation_sym, Permutation_middle. }
  assert (FD : forall v x, found eq v a = Some x -> lookup (fst x) (items a) = Some (snd x)).
  { intros v x F. apply find_some in F as [I _]. apply (in_lookup V); auto. now destruct x. }
  assert (EP : forall v, Permutation ((fresh a, v) :: items a) (items a ++ [(fresh a, v)])) by (intro; apply Permutation_cons_append).
  assert (LP : forall p v l, lookup p (loose a) = Some v -> Permutation ((p, v) :: items a) l -> Permutation (l ++ drop p (loose a)) (items a ++ loose a))
    by (intros; eapply loose_perm; eauto).
  assert (WP : forall l b, Permutation (l ++ b) (items a ++ loose a) -> whole vs {| items := l; loose := b; gone := gone a; fresh := fresh a |})
    by (intros; now apply whole_perm).
  destruct o; cbn [meaning inserted] in *; unfold made, back, put_items in M; rewrite ?app_nil_r.
  - destruct (valid_pos pos a); [|discriminate]. injection M as <- <-. apply whole_made; auto using behind_perm.
  - injection M as <- <-. now apply whole_made.
  - destruct (items a) eqn:E; [discriminate|]. rewrite <- E in *. injection M as <- <-. now apply whole_made.
  - destruct (last_item (items a)) eqn:L.
    + destruct (le _ v); injection M as <- <-; apply whole_made; auto using in_order_perm.
    + injection M as <- <-. apply whole_made; auto. apply (last_item_nil V) in L. now rewrite L.
  - destruct (valid_pos pos a); [|discriminate]. destruct (lookup e (loose a)) eqn:L; [|discriminate]. injection M as <- <-.
    apply WP, LP with v; auto using behind_perm.
  - destruct (lookup e (loose a)) eqn:L; [|discriminate]. injection M as <- <-. apply WP, LP with v; auto. apply Permutation_cons_append.
  - destruct (items a) eqn:E; [discriminate|]. rewrite <- E in *. destruct (lookup e (loose a)) eqn:L; [|discriminate]. injection M as <- <-.
    apply WP, LP with v; auto.
  - destruct (lookup e (loose a)) eqn:L; [|discriminate]. injection M as <- <-. apply WP, LP with v; auto using in_order_perm.
  - injection M as <- <-. apply WP. apply Permutation_app_tail. apply Permutation_sym, sorted_perm.
  - destruct (lookup pos (items a)) eqn:L; [|discriminate]. injection M as <- <-. now apply whole_gone.
  - destruct (found eq v a) as [x|] eqn:F; injection M as <- <-; [|exact W]. apply whole_gone; auto. now apply (FD v).
  - destruct (lookup pos (items a)) eqn:L; [|discriminate]. injection M as <- <-. auto.
  - destruct (found eq v a) as [[p w]|] eqn:F; injection M as <- <-; [|exact W]. apply WP, OUT. now apply (FD v (p, w)).
  - injection M as <- <-. now apply whole_empty.
  - injection M as <- <-. exact W.
  - injection M as <- <-. exact W.
  - injection M as <- <-. exact W.
  - injection M as <- <-. exact W.
  - injection M as <- <-. exact W.
  - injection M as <- <-. exact W.
  - destruct (pred_of pos _); [|discriminate]. injection M as <- <-. exact W.
  - destruct (succ_of pos _); [|discriminate]. injection M as <- <-. exact W.
  - destruct (lookup pos _); [|discriminate]. injection M as <- <-. exact W.
Qed.
Theorem C34_nothing_lost (V : Type) (le lt eq : V -> V -> bool) os rs a :
  meanings le lt eq os start = Some (rs, a) -> whole (flat_map inserted os) a.
Proof.
  assert (G : forall os vs b rs a, whole vs b -> meanings le lt eq os b = Some (rs, a) -> whole (vs ++ flat_map inserted os) a).
  { clear. induction os as [|o os IH]; intros vs b rs a W M; cbn [meanings flat_map] in *.
    - injection M as <- <-. now rewrite app_nil_r.
    - destruct (meaning le lt eq o b) as [[r c]|] eqn:E; [|discriminate].
      destruct (meanings le lt eq os c) as [[rs' d]|] eqn:E2; [|discriminate]. injection M as <- <-.
      rewrite app_assoc. apply (IH _ c rs'); auto. eapply meaning_whole; eauto. }
  intro M. apply (G os [] start rs); auto. split; [reflexivity|]. split; [constructor|intros p []].
Qed.

(* ------------------------------------------------------------------------- *)
(** * Order                                                                   *)

(** No value comes behind a greater one. *)
Definition in_sequence {V} (lt : V -> V -> bool) (l : list (nat * V)) : Prop := StronglySorted (fun x y => lt (snd y) (snd x) = false) l.
Definition same {V} (lt : V -> V -> bool) (v : V) (x : nat * V) : bool := negb (lt v (snd x)) && negb (lt (snd x) v).

Section Order.
Variable V : Type.
Variables le lt gt : V -> V -> bool.
Hypothesis O : ordering V le lt gt.

Lemma in_order_sorted x l : in_sequence lt l -> in_sequence lt (in_order lt x l).
Proof.
  intro S. induction S as [|y l S IH F]; cbn; [repeat constructor|]. destruct (lt (snd x) (snd y)) eqn:E.
  - constructor; [now constructor|]. constructor; [now apply (lt_asym _ _ _ _ O)|].
    rewrite Forall_forall in *. intros z Hz. specialize (F z Hz).
    destruct (lt (snd z) (snd x)) eqn:Z; auto. exfalso.
    (* z < x < y would make y not at most z *)
    assert (lt (snd x) (snd z) = false) by now apply (lt_asym _ _ _ _ O).
    assert (lt (snd x) (snd y) = false) by (eapply (lt_neg_trans _ _ _ _ O); eauto). congruence.
  - constructor; auto. rewrite Forall_forall in *. intros z Hz.
    apply (Permutation_in _ (Permutation_sym (in_order_perm lt x l))) in Hz as [<-|Hz]; auto.
Qed.
Lemma end_sorted x l y : in_sequence lt (l ++ [y]) -> lt (snd x) (snd y) = false -> in_sequence lt ((l ++ [y]) ++ [x]).
Proof.
  intros S E. induction l as [|z l IH]; cbn in *.
  - repeat constructor. exact E.
  - inversion S as [|? ? S' F]; subst. constructor; [now apply IH|]. apply Forall_app. split; auto. constructor; [|constructor].
    rewrite Forall_forall in F. assert (H : lt (snd y) (snd z) = false) by (apply F, in_or_app; right; now left).
    eapply (lt_neg_trans _ _ _ _ O); eauto.
Qed.
Lemma in_order_filter v x l : in_sequence lt l -> filter (same lt v) (in_order lt x l) = filter (same lt v) (l ++ [x]).
Proof.
  intro S. induction S as [|y l S IH F]; [reflexivity|]. cbn [in_order]. destruct (lt (snd x) (snd y)) eqn:E.
  - assert (G : forall z, In z (y :: l) -> lt (snd x) (snd z) = true).
    { intros z [<-|Hz]; auto. rewrite Forall_forall in F. specialize (F z Hz). destruct (lt (snd x) (snd z)) eqn:X; auto.
      assert (lt (snd x) (snd y) = false) by (eapply (lt_neg_trans _ _ _ _ O); eauto). congruence. }
    rewrite filter_app. cbn [filter]. fold (filter (same lt v) (y :: l)). destruct (same lt v x) eqn:SX; [|now rewrite app_nil_r].
    assert (N : filter (same lt v) (y :: l) = []).
    { assert (A : forall m, (forall z, In z m -> lt (snd x) (snd z) = true) -> filter (same lt v) m = []); [|now apply A].
      induction m as [|z m IHm]; intro H; [reflexivity|]. cbn. rewrite IHm by (intros; apply H; now right).
      unfold same in *. apply andb_true_iff in SX as [S1 S2]. apply negb_true_iff in S1, S2.
      destruct (lt v (snd z)) eqn:Z; [reflexivity|]. exfalso.
      assert (lt (snd x) (snd z) = false) by (eapply (lt_neg_trans _ _ _ _ O); eauto). rewrite H in H0; [discriminate|now left]. }
    cbn in N. rewrite N. reflexivity.
  - cbn. now rewrite IH.
Qed.
Lemma sorted_items_all l : in_sequence lt (sorted_items lt l) /\ forall v, filter (same lt v) (sorted_items lt l) = filter (same lt v) l.
Proof.
  unfold sorted_items.
  enough (A : forall l acc, in_sequence lt acc -> in_sequence lt (fold_left (fun acc y => in_order lt y acc) l acc) /\
     forall v, filter (same lt v) (fold_left (fun acc y => in_order lt y acc) l acc) = filter (same lt v) (acc ++ l)) by (apply (A l []); constructor).
  clear l. induction l as [|y l IH]; intros acc S; cbn; [rewrite app_nil_r; auto|].
  destruct (IH (in_order lt y acc)) as (A & B); [now apply in_order_sorted|]. split; [exact A|]. intro v. rewrite B.
  rewrite filter_app, in_order_filter by auto. rewrite <- filter_app. now rewrite <- app_assoc.
Qed.
End Order.

(** Sorting leaves the nodes in order, keeps every node, and keeps equal values in the order they had. *)
Theorem C34_sorting (V : Type) (le lt gt eq : V -> V -> bool) a r a' :
  ordering V le lt gt -> meaning le lt eq OSort a = Some (r, a') ->
  in_sequence lt (items a') /\ Permutation (items a) (items a') /\
  forall v, filter (same lt v) (items a') = filter (same lt v) (items a).
Proof.
  intros O M. cbn in M. injection M as <- <-. cbn. destruct (sorted_items_all V le lt gt O (items a)) as (A & B).
  split; [exact A|]. split; [apply sorted_perm|exact B].
Qed.

(** Inserting in order into a list that is in order: it still is, the new node is the only change, and it
    comes behind the nodes with the same value. *)
Theorem C34_ordered_insertion (V : Type) (le lt gt eq : V -> V -> bool) v a r a' :
  ordering V le lt gt -> in_sequence lt (items a) -> meaning le lt eq (OInsertSort v) a = Some (r, a') ->
  in_sequence lt (items a') /\ (exists l1 l2, items a = l1 ++ l2 /\ items a' = l1 ++ (fresh a, v) :: l2) /\
  filter (same lt v) (items a') = filter (same lt v) (items a) ++ [(fresh a, v)].
Proof.
  intros O S M. assert (SV : same lt v (fresh a, v) = true).
  { unfold same. cbn. destruct (lt v v) eqn:E; auto. pose proof (lt_asym _ _ _ _ O v v E). congruence. }
  assert (FE : filter (same lt v) (items a ++ [(fresh a, v)]) = filter (same lt v) (items a) ++ [(fresh a, v)])
    by (rewrite filter_app; cbn; now rewrite SV).
  cbn [meaning] in M. destruct (last_item (items a)) as [x|] eqn:L.
  - destruct (le (snd x) v) eqn:E; unfold made in M; injection M as <- <-; cbn [items].
    + destruct (last_item_some V a x L) as (l & EL). rewrite (le_lt _ _ _ _ O) in E. apply negb_true_iff in E.
      split; [|split; [|exact FE]].
      * rewrite EL in *. now apply (end_sorted V le lt gt O).
      * exists (items a), []. now rewrite app_nil_r.
    + split; [now apply (in_order_sorted V le lt gt O)|]. split; [|now rewrite (in_order_filter V le lt gt O)].
      destruct (in_order_split V lt (fresh a, v) (items a)) as (l1 & l2 & A & B & _). eauto.
  - apply (last_item_nil V) in L. unfold made in M. injection M as <- <-. cbn [items]. rewrite L in *.
    split; [repeat constructor|]. split; [exists [], []; auto|]. exact FE.
Qed.

(* ------------------------------------------------------------------------- *)
(** * The exception                                                           *)

(** Not so at the front of an empty list: the call then reads through a null pointer
    (lines 284-297 and 398-407 read the last node's link although there was none). *)
Theorem C34_front_of_empty_refuted (V : Type) (le lt gt eq : V -> V -> bool) n (s : st V) o :
  first s = None -> (exists v, o = OInsertFront v) \/ (exists e, o = OAddFront e) ->
  call le lt gt eq n o s = UB.
Proof.
  intros F [[v ->]|[e ->]]; cbn [call]; unfold insert_front, add_front, insert, last_node, bind, get_first; rewrite F; cbn.
  - unfold add, bind, get_first, new, set_first; cbn. rewrite F. cbn.
    unfold wprev, wnext, rdc, wrc, bind, put; cbn. do 6 (rewrite ?Nat.eqb_refl; cbn). reflexivity.
  - unfold add, bind, get_first, set_first. rewrite F. unfold wprev, wnext, rdc, wrc, bind, put; cbn.
    destruct (heap s e) eqn:E; [|reflexivity]. cbn. rewrite E. cbn. do 6 (rewrite ?Nat.eqb_refl; cbn). reflexivity.
Qed.

(* ------------------------------------------------------------------------- *)
(** * A case                                                                  *)

Definition num_history : list (op nat) :=
  [OInsertEnd 5; OInsertSort 3; OInsertFront 9; OInsert 1 4; OPrint; OSort; OPrint; OInsertSort 4; OPrint;
   ORemove 3; OCount; OAddSort 3; OPrint; ODeleteValue 9; OFind 4; OLast; ORetreat 1; OAdvance 0; OValue 4;
   OAddEnd 0; OEmpty; OIsEmpty].
Definition short_history : list (op nat) := firstn 19 num_history ++ [ORemove 0; OEmpty; OIsEmpty; OValue 0].

Example C34_ordering_case : ordering nat Nat.leb Nat.ltb (fun a b => Nat.ltb b a).
Proof.
  constructor; intros; rewrite ?Nat.ltb_lt, ?Nat.ltb_ge in *; try lia; [reflexivity|].
  destruct (Nat.leb_spec a b), (Nat.ltb_spec b a); cbn; auto; lia.
Qed.
Example C34_history_case :
  meanings Nat.leb Nat.ltb Nat.eqb short_history start =
    Some ([ANode 0; ANode 1; ANode 2; ANode 3; AVals [9; 3; 4; 5]; AUnit; AVals [3; 4; 5; 9]; ANode 4; AVals [3; 4; 4; 5; 9];
           ANode 3; ACount 4; AUnit; AVals [3; 4; 4; 5; 9]; AUnit; AMaybe (Some 4); AMaybe (Some 0); ANode 0; ANode 1; AVal 4;
           ANode 0; AUnit; ABool true; AVal 5],
          {| items := []; loose := [(0, 5)]; gone := [4; 4; 3; 9]; fresh := 5 |}).
Proof. reflexivity. Qed.
Example C34_history_runs :
  match calls Nat.leb Nat.ltb (fun a b => Nat.ltb b a) Nat.eqb 23 short_history create with Val _ s => freed s | _ => [] end = [4; 4; 3; 9].
Proof. reflexivity. Qed.
(** A node that is in the list may not be put into it again. *)
Example C34_rule_case : meanings Nat.leb Nat.ltb Nat.eqb num_history start = None.
Proof. reflexivity. Qed.

Print Assumptions C34_sequences.
Print Assumptions C34_nothing_lost.
Print Assumptions C34_sorting.
Print Assumptions C34_ordered_insertion.
Print Assumptions C34_front_of_empty_refuted.
