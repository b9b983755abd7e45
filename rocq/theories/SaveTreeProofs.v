From Coq Require Import ZArith List Bool Sorted Permutation Lia.
From Verif Require Import Base AATreeModel AATreeSpec AATreeProofs SaveTreeModel SaveTreeSpec.
Import ListNotations.
Open Scope Z_scope.

Lemma comp_orders : orders save_tree_comp.
Proof. unfold save_tree_comp. split; intros; repeat match goal with |- context [?x <? ?y] => destruct (Z.ltb_spec x y) | H : context [?x <? ?y] |- _ => destruct (Z.ltb_spec x y)
  | |- context [?x >? ?y] => rewrite (Z.gtb_ltb x y) | H : context [?x >? ?y] |- _ => rewrite (Z.gtb_ltb x y) in H end; lia. Qed.
Lemma comp_eq a b : save_tree_comp a b = 0 <-> n_hash a = n_hash b.
Proof. unfold save_tree_comp. rewrite Z.gtb_ltb. destruct (Z.ltb_spec (n_hash a) (n_hash b)), (Z.ltb_spec (n_hash b) (n_hash a)); lia. Qed.

(** The path and the hash array. *)
Lemma text_cons s p : text (s :: p) = text p ++ s.
Proof. unfold text. cbn [rev]. rewrite concat_app. cbn. now rewrite app_nil_r. Qed.
Lemma key_cons s p : key (s :: p) = djb2 (key p) s.
Proof. unfold key, djb2. rewrite text_cons, fold_left_app. reflexivity. Qed.
Fixpoint tails (p : list (list Z)) (cs : list (list (list Z))) : Prop :=
  match cs with [] => True | c :: cs => (exists q, p = q ++ c) /\ tails c cs end.
Definition zlen {A} (l : list A) : Z := Z.of_nat (length l).
Record pinv (pl : place) (st : store) : Prop := {
  p_i : s_i st = zlen (path pl);
  p_room : zlen (path pl) <= 127;
  p_hash : forall q p, path pl = q ++ p -> s_hash st (zlen p) = Some (key p);
  p_callers : s_callers st = map zlen (callers pl);
  p_tails : tails (path pl) (callers pl) }.
(** The tree and the blocks. *)
Record tinv (st : store) : Prop := {
  t_bal : balanced (s_tree st);
  t_asc : ascending save_tree_comp (in_order (s_tree st));
  t_blocks : forall v z, In (v, z) (s_blocks st) -> 0 <= v < zlen (s_blocks st);
  t_nodup : NoDup (map fst (s_blocks st));
  t_freed : Permutation (freed st) (map fst (s_blocks st));
  t_proxy : forall n, In n (in_order (s_tree st)) -> In (n_d n) (map fst (s_blocks st)) }.

Lemma tails_app q p cs : tails p cs -> tails (q ++ p) cs.
Proof. destruct cs as [|c cs]; cbn; [auto|]. intros [(q' & ->) T]. split; [exists (q ++ q'); now rewrite app_assoc|exact T]. Qed.
Lemma zlen_app {A} (a b : list A) : zlen (a ++ b) = zlen a + zlen b.
Proof. unfold zlen. rewrite app_length. lia. Qed.
Lemma zlen_pos {A} (a : list A) : 0 <= zlen a. Proof. unfold zlen. lia. Qed.

Lemma cell_at pl st : pinv pl st -> cell st (s_i st) = Ok (key (path pl)).
Proof.
  intros [I R H C T]. unfold cell. pose proof (zlen_pos (path pl)). rewrite I.
  destruct (Z.ltb_spec (zlen (path pl)) 0); [lia|]. destruct (zlen (path pl) >=? 128) eqn:G; [rewrite Z.geb_leb in G; apply Z.leb_le in G; lia|].
  cbn [orb]. now rewrite (H [] (path pl) eq_refl).
Qed.
Lemma encode_inv pl st s : pinv pl st -> tinv st -> room (path pl) ->
  exists st', encode st s = Ok st' /\ pinv {| path := s :: path pl; callers := callers pl |} st' /\ tinv st' /\ s_tree st' = s_tree st /\ s_blocks st' = s_blocks st.
Proof.
  intros P TI RM. unfold encode. rewrite (cell_at pl st P). destruct P as [I R H C T]. unfold room in RM.
  destruct (s_i st + 1 >=? 128) eqn:G; [rewrite Z.geb_leb in G; apply Z.leb_le in G; unfold zlen in *; lia|].
  eexists. split; [reflexivity|]. split; [|split; [destruct TI; now split|now split]].
  split; cbn [s_i s_hash s_callers path callers].
  - rewrite I. unfold zlen. cbn [length]. lia.
  - unfold zlen in *. cbn [length]. lia.
  - intros q p E. rewrite I. destruct q as [|x q]; cbn [app] in E.
    + subst p. replace (zlen (s :: path pl) =? zlen (path pl) + 1) with true by (symmetry; apply Z.eqb_eq; unfold zlen; cbn [length]; lia). now rewrite key_cons.
    + injection E as -> E. assert (L : zlen p <= zlen (path pl)) by (rewrite E, zlen_app; pose proof (zlen_pos q); lia).
      destruct (Z.eqb_spec (zlen p) (zlen (path pl) + 1)); [lia|]. now apply (H q).
  - exact C.
  - now apply (tails_app [s]).
Qed.
Lemma decode_inv pl st : pinv pl st -> tinv st -> own pl -> pinv {| path := tl (path pl); callers := callers pl |} (decode st) /\ tinv (decode st) /\ room (tl (path pl)).
Proof.
  intros [I R H C T] TI O. unfold own in O. destruct (path pl) as [|x p] eqn:E; [cbn in O; lia|]. cbn [tl].
  split; [|split; [destruct TI; now split|unfold room, zlen in *; cbn [length] in R; lia]].
  split; cbn [decode with_i s_i s_hash s_callers path callers].
  - rewrite I. unfold zlen. cbn [length]. lia.
  - unfold zlen in *. cbn [length] in R. lia.
  - intros q p' Q. apply (H (x :: q)). cbn. now f_equal.
  - exact C.
  - destruct (callers pl) as [|c cs]; cbn [tails] in *; [auto|]. destruct T as [(q & Q) T]. split; [|exact T].
    destruct q as [|y q]; cbn [app] in Q; [subst c; cbn in O; lia|]. injection Q as _ Q. now exists q.
Qed.

Lemma freed_insert st n t : tinv st -> insert_ save_tree_comp (s_tree st) n = Some (t, true) ->
  balanced t /\ ascending save_tree_comp (in_order t) /\ Permutation (in_order t) (n :: in_order (s_tree st)).
Proof.
  intros TI E. destruct (insert_bal node save_tree_comp (s_tree st) n (t_bal _ TI)) as (t' & f & E' & B & _). rewrite E in E'. injection E' as <- <-.
  destruct (insert_in node save_tree_comp comp_orders _ n t true (t_asc _ TI) E) as (S & _ & P). auto.
Qed.
Lemma insert_new st n : tinv st -> find_ save_tree_comp (s_tree st) (probe (n_hash n)) = None -> exists t, insert_ save_tree_comp (s_tree st) n = Some (t, true).
Proof.
  intros TI F. destruct (insert_bal node save_tree_comp (s_tree st) n (t_bal _ TI)) as (t & f & E & _).
  destruct (insert_in node save_tree_comp comp_orders _ n t f (t_asc _ TI) E) as (_ & Q & _). exists t.
  replace true with f; [exact E|]. rewrite Q. apply negb_true_iff. apply Bool.not_true_iff_false. rewrite existsb_exists. intros (w & I & C).
  rewrite (find_in node save_tree_comp comp_orders _ _ (t_asc _ TI)) in F. pose proof (find_none _ _ F w I) as N. cbn in N.
  apply Z.eqb_eq, comp_eq in C. apply Z.eqb_neq in N. apply N, comp_eq. exact C.
Qed.
Lemma perm_freed l l' : Permutation l l' -> Permutation (map n_d (filter (fun n => negb (n_proxy n)) l)) (map n_d (filter (fun n => negb (n_proxy n)) l')).
Proof.
  intro P. apply Permutation_map. induction P as [|x l l' P IH|x y l|l l' l'' P IH P' IH']; cbn; auto.
  - destruct (negb (n_proxy x)); auto.
  - destruct (negb (n_proxy x)), (negb (n_proxy y)); auto. constructor.
  - now transitivity (filter (fun n => negb (n_proxy n)) l').
Qed.
Definition stored (st : store) (h : Z) : option node := find_ save_tree_comp (s_tree st) (probe h).
Lemma stored_iff st h n : tinv st -> (stored st h = Some n <-> In n (in_order (s_tree st)) /\ n_hash n = h).
Proof.
  intro TI. unfold stored. rewrite (find_in node save_tree_comp comp_orders _ _ (t_asc _ TI)). split.
  - intro F. apply find_some in F as [I Q]. split; [exact I|]. apply Z.eqb_eq, comp_eq in Q. cbn in Q. auto.
  - intros [I <-]. destruct (List.find _ _) as [m|] eqn:F.
    + apply find_some in F as [I' Q]. apply Z.eqb_eq, comp_eq in Q. cbn in Q. f_equal.
      pose proof (t_asc _ TI) as S. revert I I' S. generalize (in_order (s_tree st)). induction l as [|x l IH]; [intros []|]. intros I I' S. inversion S as [|? ? S1 F1]; subst.
      rewrite Forall_forall in F1. destruct I as [->|I], I' as [->|I']; auto.
      * specialize (F1 m I'). assert (save_tree_comp n m = 0) by now apply comp_eq. lia.
      * specialize (F1 n I). assert (save_tree_comp m n = 0) by (apply comp_eq; auto). lia.
    + pose proof (find_none _ _ F n I) as N. cbn in N. apply Z.eqb_neq in N. exfalso. apply N, comp_eq. reflexivity.
Qed.
Lemma in_perm {A} (l l' : list A) : Permutation l l' -> forall x, In x l <-> In x l'.
Proof. intros P x. split; [apply (Permutation_in _ P)|apply (Permutation_in _ (Permutation_sym P))]. Qed.

Lemma data_inv st h size : tinv st -> exists st' v f, data_retrieve st h size = Ok (st', v, f) /\ tinv st' /\
  s_i st' = s_i st /\ s_hash st' = s_hash st /\ s_callers st' = s_callers st /\
  (exists n, stored st' h = Some n /\ n_d n = v) /\ (forall k n, stored st k = Some n -> stored st' k = Some n) /\
  (forall k n, stored st' k = Some n -> k = h \/ stored st k = Some n) /\
  (f = true <-> stored st h = None) /\ (f = true -> ~ In v (map fst (s_blocks st)) /\ s_blocks st' = (v, size) :: s_blocks st) /\ (f = false -> st' = st).
Proof.
  intro TI. unfold data_retrieve. destruct (find_ save_tree_comp (s_tree st) (probe h)) as [n|] eqn:F.
  - exists st, (n_d n), false. split; [reflexivity|]. split; [exact TI|]. do 3 (split; [reflexivity|]). split; [now exists n|]. split; [auto|]. split; [auto|].
    split; [unfold stored; rewrite F; split; discriminate|]. split; [discriminate|auto].
  - set (n := {| n_proxy := false; n_hash := h; n_d := fresh st |}). destruct (insert_new st n TI F) as (t & E). rewrite E.
    destruct (freed_insert st n t TI E) as (B & S & P). 
    eexists _, _, _. split; [reflexivity|]. set (st' := {| s_i := s_i st; s_hash := _; s_tree := t; s_blocks := _; s_callers := _ |}).
    assert (FR : ~ In (fresh st) (map fst (s_blocks st))).
    { intro I. apply in_map_iff in I as ([v z] & Q & I). cbn in Q. subst v. apply (t_blocks _ TI) in I. unfold fresh, zlen in I. lia. }
    assert (TI' : tinv st').
    { split; cbn; auto.
      - intros v z [Q|I]; [injection Q as <- <-; unfold fresh, zlen; cbn [length]; lia|]. apply (t_blocks _ TI) in I. unfold zlen in *. cbn [length]. lia.
      - constructor; [exact FR|apply (t_nodup _ TI)].
      - unfold freed. cbn [s_tree st']. rewrite (perm_freed _ _ P). cbn. apply perm_skip. apply (t_freed _ TI).
      - intros m I. apply (Permutation_in _ P) in I as [<-|I]; [now left|right; now apply (t_proxy _ TI)]. }
    split; [exact TI'|]. do 3 (split; [reflexivity|]).
    assert (ST : forall k m, stored st' k = Some m <-> (m = n /\ k = h) \/ stored st k = Some m).
    { intros k m. rewrite (stored_iff st' k m TI'), (stored_iff st k m TI). cbn [s_tree st']. rewrite (in_perm _ _ P). cbn [In].
      split; [intros [[<-|I] Q]; [left; auto|right; auto]|intros [[-> ->]|[I Q]]; auto]. }
    split; [exists n; split; [apply ST; auto|reflexivity]|]. split; [intros k m Q; apply ST; auto|].
    split; [intros k m Q; apply ST in Q as [[_ ->]|Q]; auto|]. split; [unfold stored; rewrite F; tauto|]. split; [|discriminate]. intros _. split; [exact FR|reflexivity].
Qed.
Lemma pinv_frame pl st st' : pinv pl st -> s_i st' = s_i st -> s_hash st' = s_hash st -> s_callers st' = s_callers st -> pinv pl st'.
Proof. intros [I R H C T] E1 E2 E3. split; try congruence. intros q p Q. rewrite E2. now apply (H q). Qed.

(** One call. *)
Definition wants (o : op) : option Z := match o with Retrieve n | Proxy _ n => Some n | _ => None end.
Ltac enc := match goal with P : pinv ?pl ?st, T : tinv ?st, RM : room _ |- context [encode ?st ?s] =>
    let P' := fresh in let T' := fresh in let E1 := fresh in let st' := fresh in destruct (encode_inv pl st s P T RM) as (st' & -> & P' & T' & E1 & _);
    exists st', None; split; [reflexivity|]; split; [exact P'|]; split; [exact T'|]; split; [unfold stored; rewrite E1; auto|reflexivity] end.
Lemma step pl st o pl' : pinv pl st -> tinv st -> goes pl o pl' -> exists st' r, exec st o = Ok (st', r) /\ pinv pl' st' /\ tinv st' /\
  (forall k n, stored st k = Some n -> stored st' k = Some n) /\
  match r with
  | Some (v, f) => wants o <> None /\ (exists n, stored st' (key (path pl)) = Some n /\ n_d n = v) /\ pl' = pl /\
                   (stored st (key (path pl)) <> None -> f = false) /\ (forall n, o = Retrieve n -> stored st (key (path pl)) = None -> f = true) /\
                   (f = true -> ~ In v (map fst (s_blocks st)) /\ exists n, wants o = Some n /\ In (v, n) (s_blocks st'))
  | None => wants o = None
  end.
Proof.
  intros P T G. destruct G as [s RM|i RM|i j RM|OW|s OW|i OW|i RM|i j OW|i j RM|n|s n NE| |c cs CC]; cbn [exec wants].
  1,2,3,7,9: enc.
  - destruct (decode_inv pl st P T OW) as (P' & T' & _). exists (decode st), None. split; [reflexivity|]. split; [exact P'|]. split; [exact T'|]. split; auto.
  - destruct (decode_inv pl st P T OW) as (P' & T' & RM). destruct (encode_inv _ _ s P' T' RM) as (st' & -> & P2 & T2 & E1 & E2).
    exists st', None. split; [reflexivity|]. split; [exact P2|]. split; [exact T2|]. split; [unfold stored; rewrite E1; auto|reflexivity].
  - destruct (decode_inv pl st P T OW) as (P' & T' & RM). destruct (encode_inv _ _ (chars_i i) P' T' RM) as (st' & -> & P2 & T2 & E1 & E2).
    exists st', None. split; [reflexivity|]. split; [exact P2|]. split; [exact T2|]. split; [unfold stored; rewrite E1; auto|reflexivity].
  - destruct (decode_inv pl st P T OW) as (P' & T' & RM). destruct (encode_inv _ _ (chars_ij i j) P' T' RM) as (st' & -> & P2 & T2 & E1 & E2).
    exists st', None. split; [reflexivity|]. split; [exact P2|]. split; [exact T2|]. split; [unfold stored; rewrite E1; auto|reflexivity].
  - unfold retrieve. rewrite (cell_at pl st P). destruct (data_inv st (key (path pl)) n T) as (st' & v & f & -> & T' & E1 & E2 & E3 & N & K1 & K2 & F1 & F2 & F3).
    exists st', (Some (v, f)). split; [reflexivity|]. split; [now apply (pinv_frame pl st)|]. split; [exact T'|]. split; [exact K1|]. split; [discriminate|]. split; [exact N|]. split; [reflexivity|].
    split; [intro Q; destruct f; [exfalso; now apply Q, F1|reflexivity]|]. split; [intros m _ Q; now apply F1|].
    intro Q. destruct (F2 Q) as [A B]. split; [exact A|]. exists n. split; [reflexivity|]. rewrite B. now left.
  - unfold proxy. rewrite (cell_at pl st P). destruct (find_ save_tree_comp (s_tree st) (probe (key (path pl)))) as [m|] eqn:F.
    + exists st, (Some (n_d m, false)). split; [reflexivity|]. split; [exact P|]. split; [exact T|]. split; [auto|]. split; [discriminate|]. split; [now exists m|]. split; [reflexivity|].
      split; [auto|]. split; [intros ? Q; discriminate Q|discriminate].
    + destruct (data_inv st (djb2 5381 s) n T) as (st1 & v & f & -> & T1 & E1 & E2 & E3 & (n1 & N1 & N2) & K1 & K2 & F1 & F2 & F3).
      assert (Fr : find_ save_tree_comp (s_tree st1) (probe (key (path pl))) = None).
      { change (stored st1 (key (path pl)) = None). destruct (stored st1 (key (path pl))) as [m|] eqn:Q; [|reflexivity]. apply K2 in Q as [Q|Q]; [contradiction|]. unfold stored in Q. congruence. }
      set (m := {| n_proxy := true; n_hash := key (path pl); n_d := v |}). destruct (insert_new st1 m T1 Fr) as (t & E). rewrite E.
      destruct (freed_insert st1 m t T1 E) as (B & S & PP). eexists _, _. split; [reflexivity|]. set (st' := {| s_i := s_i st1; s_hash := _; s_tree := t; s_blocks := _; s_callers := _ |}).
      assert (T' : tinv st').
      { split; cbn; auto; try apply T1.
        - unfold freed. cbn [s_tree st']. rewrite (perm_freed _ _ PP). cbn. apply (t_freed _ T1).
        - intros x I. apply (Permutation_in _ PP) in I as [<-|I]; [|now apply (t_proxy _ T1)]. cbn. rewrite <- N2.
          apply (t_proxy _ T1). now apply (stored_iff st1 _ _ T1) in N1. }
      assert (ST : forall k x, stored st' k = Some x <-> (x = m /\ k = key (path pl)) \/ stored st1 k = Some x).
      { intros k x. rewrite (stored_iff st' k x T'), (stored_iff st1 k x T1). cbn [s_tree st']. rewrite (in_perm _ _ PP). cbn [In].
        split; [intros [[<-|I] Q]; [left; auto|right; auto]|intros [[-> ->]|[I Q]]; auto]. }
      split; [apply (pinv_frame pl st); auto|]. split; [exact T'|]. split; [intros k x Q; apply ST; auto|]. split; [discriminate|].
      split; [exists m; split; [apply ST; auto|reflexivity]|]. split; [reflexivity|].
      split; [intro Q; exfalso; apply Q; exact F|]. split; [intros ? Q; discriminate Q|].
      intro Q. destruct (F2 Q) as [A C]. split; [exact A|]. exists n. split; [reflexivity|]. cbn. rewrite C. now left.
  - eexists _, None. split; [reflexivity|]. split; [|split; [destruct T; now split|split; auto]]. destruct P as [I R H C TT]. split; cbn; auto; [now rewrite I, C|].
    split; [now exists []|exact TT].
  - destruct P as [I R H C TT]. rewrite CC in C, TT. cbn in C, TT. rewrite C. destruct TT as [(q & Q) TT].
    eexists _, None. split; [reflexivity|]. split; [|split; [destruct T; now split|split; auto]]. split; cbn; auto.
    + rewrite Q, zlen_app in R. pose proof (zlen_pos q). lia.
    + intros q' p E. apply (H (q ++ q')). now rewrite Q, E, app_assoc.
Qed.
Lemma init_inv : pinv at_start init /\ tinv init.
Proof.
  split; split; cbn; auto; try (unfold zlen; cbn; lia); try constructor; try (intros ? ? H; now destruct H); try (intros ? H; now destruct H).
  intros q p E. symmetry in E. apply app_eq_nil in E as [_ ->]. reflexivity.
Qed.
Lemma hist_inv pl0 st0 t pl st : pinv pl0 st0 -> tinv st0 -> history pl0 st0 t pl st -> pinv pl st /\ tinv st /\ (forall k n, stored st0 k = Some n -> stored st k = Some n).
Proof.
  intros P T H. induction H as [|t pl st o pl' st' r H (P1 & T1 & K1) G E]; [auto|].
  destruct (step pl st o pl' P1 T1 G) as (st2 & r2 & E2 & P2 & T2 & K2 & _). rewrite E in E2. injection E2 as <- <-. auto.
Qed.
