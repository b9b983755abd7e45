(** C32: what the store of forward results returns over histories of calls. *)
From Coq Require Import ZArith List Bool Sorted Permutation Lia.
From Verif Require Import Base AATreeModel AATreeSpec SaveTreeModel SaveTreeSpec SaveTreeProofs.
Import ListNotations.
Open Scope Z_scope.

(** A well-behaved caller is never let down: each of its calls is defined. *)
Theorem C32_calls_are_defined : forall t pl st o pl', history at_start init t pl st -> goes pl o pl' -> exists st' r, exec st o = Ok (st', r) /\ history at_start init ((o, r) :: t) pl' st'.
Proof.
  intros t pl st o pl' H G. destruct init_inv as [P0 T0]. destruct (hist_inv _ _ _ _ _ P0 T0 H) as (P & T & _).
  destruct (step pl st o pl' P T G) as (st' & r & E & _). exists st', r. split; [exact E|]. now apply (h_call _ _ t pl st).
Qed.
(** The same path, however it was reached and whatever happened in between, finds the same block again, and it is not reported as new. *)
Theorem C32_same_path_same_block : forall t pl st o1 st1 v1 f1 t2 pl2 st2 o2 pl3 st3 v2 f2,
  history at_start init t pl st -> goes pl o1 pl -> exec st o1 = Ok (st1, Some (v1, f1)) ->
  history pl st1 t2 pl2 st2 -> text (path pl2) = text (path pl) -> goes pl2 o2 pl3 -> exec st2 o2 = Ok (st3, Some (v2, f2)) ->
  v2 = v1 /\ f2 = false.
Proof.
  intros t pl st o1 st1 v1 f1 t2 pl2 st2 o2 pl3 st3 v2 f2 H G1 E1 H2 TX G2 E2.
  destruct init_inv as [P0 T0]. destruct (hist_inv _ _ _ _ _ P0 T0 H) as (P & T & _).
  destruct (step pl st o1 pl P T G1) as (s & r & E & P1 & T1 & _ & R). rewrite E1 in E. injection E as <- <-. destruct R as (_ & (n1 & N1 & V1) & _).
  destruct (hist_inv _ _ _ _ _ P1 T1 H2) as (P2 & T2 & K).
  destruct (step pl2 st2 o2 pl3 P2 T2 G2) as (s & r & E & P3 & T3 & K3 & R). rewrite E2 in E. injection E as <- <-. destruct R as (_ & (n2 & N2 & V2) & _ & F & _).
  assert (KE : key (path pl2) = key (path pl)) by (unfold key; now rewrite TX). rewrite KE in *. apply K in N1. split.
  - apply K3 in N1. congruence.
  - apply F. congruence.
Qed.
(** A block reported as new has been handed out never before, and has the size asked for. *)
Theorem C32_new_blocks_are_fresh : forall t pl st o pl' st' v, history at_start init t pl st -> goes pl o pl' -> exec st o = Ok (st', Some (v, true)) ->
  (forall o' f, ~ In (o', Some (v, f)) t) /\ exists n, wants o = Some n /\ In (v, n) (s_blocks st').
Proof.
  intros t pl st o pl' st' v H G E. destruct init_inv as [P0 T0].
  assert (B : forall t pl st, history at_start init t pl st -> forall o f v, In (o, Some (v, f)) t -> In v (map fst (s_blocks st))).
  { clear - P0 T0. intros t pl st H. induction H as [|t pl st o pl' st' r H IH G E]; [intros ? ? ? []|]. intros o' f v I.
    destruct (hist_inv _ _ _ _ _ P0 T0 H) as (P & T & _). destruct (step pl st o pl' P T G) as (s & r' & E' & P1 & T1 & K & R). rewrite E in E'. injection E' as <- <-.
    destruct I as [I|I].
    - injection I as -> ->. destruct R as (_ & (n & N & <-) & _). apply (t_proxy _ T1). now apply (stored_iff _ _ _ T1) in N.
    - specialize (IH _ _ _ I). apply (Permutation_in _ (Permutation_sym (t_freed _ T))) in IH. unfold freed in IH. apply in_map_iff in IH as (n & <- & IH).
      apply filter_In in IH as [IH _]. apply (t_proxy _ T1). assert (Q : stored st (n_hash n) = Some n) by now apply (stored_iff _ _ _ T). apply K in Q. now apply (stored_iff _ _ _ T1) in Q. }
  destruct (hist_inv _ _ _ _ _ P0 T0 H) as (P & T & _). destruct (step pl st o pl' P T G) as (s & r' & E' & P1 & T1 & K & R). rewrite E in E'. injection E' as <- <-.
  destruct R as (_ & _ & _ & _ & _ & F). destruct (F eq_refl) as [F1 F2]. split; [|exact F2]. intros o' f I. now apply F1, (B _ _ _ H o' f).
Qed.
Ltac same_tree := match goal with EN : (forall st s st', encode st s = Ok st' -> _), E : silent (encode ?a ?b) = _, S : stored _ _ = Some _, N : stored _ _ = None |- _ =>
  let Q := fresh in destruct (encode a b) as [?y| |] eqn:Q; cbn in E; try discriminate E; injection E as <- <-; apply EN in Q; unfold stored in S, N; rewrite Q in S;
  repeat match type of S with context [if ?x then _ else _] => destruct x end; cbn in S; congruence end.
(** A plain retrieval at a path whose key no earlier retrieval used makes a new block, unless
    a proxy was made under a name with that key. *)
Theorem C32_first_retrieval_is_new : forall t pl st n pl' st' v f, history at_start init t pl st -> goes pl (Retrieve n) pl' -> exec st (Retrieve n) = Ok (st', Some (v, f)) ->
  (forall u o r pl2 st2 pl3, history at_start init u pl2 st2 -> (exists w, t = w ++ (o, Some r) :: u) -> goes pl2 o pl3 -> key (path pl2) <> key (path pl)) ->
  (forall s n r, In (Proxy s n, r) t -> djb2 5381 s <> key (path pl)) -> f = true.
Proof.
  intros t pl st n pl' st' v f H G E NK NP. destruct init_inv as [P0 T0].
  destruct (hist_inv _ _ _ _ _ P0 T0 H) as (P & T & _). destruct (step pl st _ pl' P T G) as (s & r' & E' & P1 & T1 & K & R). rewrite E in E'. injection E' as <- <-.
  destruct R as (_ & _ & _ & _ & F & _). apply (F n eq_refl). clear F E G P1 T1 K.
  assert (Q : forall k, (forall u o r pl2 st2 pl3, history at_start init u pl2 st2 -> (exists w, t = w ++ (o, Some r) :: u) -> goes pl2 o pl3 -> key (path pl2) <> k) ->
                 (forall s n r, In (Proxy s n, r) t -> djb2 5381 s <> k) -> stored st k = None); [|now apply Q].
  clear NK NP P T st' v f pl' n. intros k. induction H as [|t pl st o pl' st' r H IH G E]; [reflexivity|]. intros NK NP.
  destruct (hist_inv _ _ _ _ _ P0 T0 H) as (P & T & _).
  assert (N0 : stored st k = None).
  { apply IH; [|intros s n x I; apply (NP s n x); now right]. intros u o' r' pl2 st2 pl3 H' (w & ->) G'. apply (NK u o' r' pl2 st2 pl3 H'); [|exact G']. exists ((o, r) :: w). reflexivity. }
  destruct (stored st' k) as [m|] eqn:S; [exfalso|reflexivity].
  assert (D : forall st h size st' v f, tinv st -> data_retrieve st h size = Ok (st', v, f) -> forall k n, stored st' k = Some n -> k = h \/ stored st k = Some n).
  { intros a h size b v f Ta Ea. destruct (data_inv a h size Ta) as (x1 & x2 & x3 & Ex & _ & _ & _ & _ & _ & _ & K2 & _). rewrite Ea in Ex. injection Ex as <- <- <-. exact K2. }
  assert (EN : forall st s st', encode st s = Ok st' -> s_tree st' = s_tree st).
  { intros a s b. unfold encode. destruct (cell a (s_i a)); try discriminate. destruct (s_i a + 1 >=? 128); intro Q; [discriminate|injection Q as <-; reflexivity]. }
  destruct o as [s|i|i j| |s|i fl|i j fl|n|s n| |]; cbn [exec] in E.
  1,2,3,5,6,7: same_tree.
  - injection E as <- <-. unfold stored in *. cbn in S. congruence.
  - unfold retrieve in E. rewrite (cell_at pl st P) in E. destruct (data_retrieve st (key (path pl)) n) as [[[y v] f]| |] eqn:Q; cbn in E; try discriminate E. injection E as <- <-.
    destruct (D _ _ _ _ _ _ T Q _ _ S) as [->|]; [|congruence]. apply (NK t (Retrieve n) (v, f) pl st pl' H (ex_intro _ [] eq_refl) G eq_refl).
  - unfold proxy in E. rewrite (cell_at pl st P) in E. destruct (find_ save_tree_comp (s_tree st) (probe (key (path pl)))) as [y|] eqn:Q0.
    { cbn in E. injection E as <- <-. congruence. }
    destruct (data_retrieve st (djb2 5381 s) n) as [[[y v] f]| |] eqn:Q; cbn in E; try discriminate E.
    destruct (insert_ save_tree_comp (s_tree y) {| n_proxy := true; n_hash := key (path pl); n_d := v |}) as [[z [|]]|] eqn:Q1; cbn in E; try discriminate E.
    injection E as <- <-.
    assert (TY : tinv y) by (destruct (data_inv st (djb2 5381 s) n T) as (x1 & x2 & x3 & Ex & Tx & _); rewrite Q in Ex; injection Ex as <- <- <-; exact Tx).
    destruct (freed_insert y _ z TY Q1) as (B & SS & PP).
    assert (Mm : In m (in_order z) /\ n_hash m = k).
    { unfold stored in S. cbn in S. rewrite (AATreeProofs.find_in node save_tree_comp comp_orders _ _ SS) in S. apply find_some in S as [I C]. split; [exact I|]. apply Z.eqb_eq, comp_eq in C. cbn in C. auto. }
    destruct Mm as [I HK]. apply (Permutation_in _ PP) in I as [<-|I].
    + cbn in HK. apply (NK t (Proxy s n) (v, f) pl st pl' H (ex_intro _ [] eq_refl) G HK).
    + assert (SY : stored y k = Some m) by (now apply (stored_iff y k m TY)). destruct (D _ _ _ _ _ _ T Q _ _ SY) as [->|]; [|congruence].
      apply (NP s n (Some (v, f))); [now left|reflexivity].
  - injection E as <- <-. unfold stored in *. cbn in S. congruence.
  - destruct (s_callers st); [discriminate|]. injection E as <- <-. unfold stored in *. cbn in S. congruence.
Qed.
(** Going down and up again, or calling a function and returning, leaves the caller where it was. *)
Theorem C32_call_returns_to_the_path : forall t pl st pl1 st1 t2 pl2 st2, history at_start init t pl st ->
  goes pl Enter pl1 -> exec st Enter = Ok (st1, None) -> history pl1 st1 t2 pl2 st2 -> callers pl2 = callers pl1 ->
  exists pl3 st3, goes pl2 Leave pl3 /\ exec st2 Leave = Ok (st3, None) /\ pl3 = pl /\ s_i st3 = s_i st /\ s_hash st3 (s_i st3) = s_hash st (s_i st).
Proof.
  intros t pl st pl1 st1 t2 pl2 st2 H G E H2 CC. destruct init_inv as [P0 T0]. destruct (hist_inv _ _ _ _ _ P0 T0 H) as (P & T & _).
  inversion G; subst. cbn in CC. destruct (step _ _ _ _ P T G) as (x & r & Ex & P1 & T1 & _). rewrite E in Ex. injection Ex as <- <-.
  destruct (hist_inv _ _ _ _ _ P1 T1 H2) as (P2 & T2 & _).
  assert (GL : goes pl2 Leave {| path := path pl; callers := callers pl |}) by now apply goes_leave.
  destruct (step _ _ _ _ P2 T2 GL) as (st3 & r & E3 & P3 & T3 & _ & R). destruct r as [[v f]|]; [destruct R as [R _]; now destruct R|].
  exists {| path := path pl; callers := callers pl |}, st3. split; [exact GL|]. split; [exact E3|]. split; [now destruct pl|].
  split; [rewrite (p_i _ _ P3), (p_i _ _ P); reflexivity|]. rewrite (p_i _ _ P3), (p_i _ _ P). cbn [path].
  rewrite (p_hash _ _ P3 [] (path pl) eq_refl), (p_hash _ _ P [] (path pl) eq_refl). reflexivity.
Qed.
(** save_tree_free frees every block ever allocated once, and nothing else. *)
Theorem C32_every_block_freed_once : forall t pl st, history at_start init t pl st -> NoDup (freed st) /\ forall v, In v (freed st) <-> In v (map fst (s_blocks st)).
Proof.
  intros t pl st H. destruct init_inv as [P0 T0]. destruct (hist_inv _ _ _ _ _ P0 T0 H) as (P & T & _). split.
  - apply (Permutation_NoDup (Permutation_sym (t_freed _ T)) (t_nodup _ T)).
  - intro v. apply in_perm. apply (t_freed _ T).
Qed.
(** The claims that fail. *)
Fixpoint run (st : store) (l : list op) : outcome (store * option (Z * bool)) :=
  match l with
  | [] => Ok (st, None)
  | [o] => exec st o
  | o :: l => match exec st o with Ok (st, _) => run st l | Err c => Err c | UB => UB end
  end.
(** Layer 1, derivative 21 and layer 11, derivative 2: the digits of an index are written
    backwards and nothing separates two indices; one block serves both. *)
Theorem C32_different_paths_share_a_block_refuted : exists st st' v n f, [chars_i 21; chars_i 1] <> [chars_i 2; chars_i 11] /\
  run init [EncodeI 1; EncodeI 21; Retrieve n] = Ok (st, Some (v, true)) /\ run st [Decode; Decode; EncodeI 11; EncodeI 2; Retrieve n] = Ok (st', Some (v, f)) /\ f = false.
Proof. do 2 eexists. exists 0, 8, false. split; [discriminate|]. split; [vm_compute; reflexivity|]. split; [vm_compute; reflexivity|reflexivity]. Qed.
(** Two names with the same hash. *)
Theorem C32_different_names_share_a_block_refuted : exists st st' v f, [97; 98] <> [98; 65] /\
  run init [EncodeS [97; 98]; Retrieve 8] = Ok (st, Some (v, true)) /\ run st [Decode; EncodeS [98; 65]; Retrieve 8] = Ok (st', Some (v, f)) /\ f = false.
Proof. do 2 eexists. exists 0, false. split; [discriminate|]. split; [vm_compute; reflexivity|]. split; [vm_compute; reflexivity|reflexivity]. Qed.
(** The block found again may be smaller than the size asked for. *)
Theorem C32_block_large_enough_refuted : exists st st' v, run init [EncodeS [97]; Retrieve 8] = Ok (st, Some (v, true)) /\
  exec st (Retrieve 800) = Ok (st', Some (v, false)) /\ s_blocks st' = [(v, 8)].
Proof. do 2 eexists. exists 0. split; [vm_compute; reflexivity|]. split; vm_compute; reflexivity. Qed.
(** A proxy of a path for itself dereferences a null pointer. *)
Theorem C32_proxy_of_itself_refuted : exists st, exec init (EncodeS [97]) = Ok (st, None) /\ exec st (Proxy [97] 8) = UB.
Proof. eexists. split; vm_compute; reflexivity. Qed.

(** A history with all of it: two calls down, a proxy, a return, the first path again. *)
Definition case : list op := [EncodeS [97]; Retrieve 8; Enter; EncodeI 12; Retrieve 16; RecodeI 3 false; Proxy [98; 98] 24; Decode; Leave; EncodeIJ 1 (-2); Decode].
Definition nine : place := {| path := [[97]]; callers := [] |}.
Definition next (st : store) (o : op) : store := match exec st o with Ok (st, _) => st | _ => st end.
Definition ans (st : store) (o : op) : option (Z * bool) := match exec st o with Ok (_, r) => r | _ => None end.
Definition isok (st : store) (o : op) : bool := match exec st o with Ok _ => true | _ => false end.
Lemma isok_eq st o : isok st o = true -> exec st o = Ok (next st o, ans st o).
Proof. unfold isok, next, ans. destruct (exec st o) as [[s r]| |]; [reflexivity|discriminate|discriminate]. Qed.
Lemma h_next pl0 st0 t pl st o pl' : history pl0 st0 t pl st -> goes pl o pl' -> isok st o = true -> history pl0 st0 ((o, ans st o) :: t) pl' (next st o).
Proof. intros H G E. apply (h_call _ _ t pl st); auto. now apply isok_eq. Qed.
Ltac deep n := match n with O => apply h_nil | Datatypes.S ?m => eapply h_next; [deep m| |] end.
Definition final : store := fold_left next case init.
Example C32_case : exists t, history at_start init t nine final /\ exists st', exec final (Retrieve 8) = Ok (st', Some (0, false)) /\ freed st' = [0; 2; 1] /\ goes nine (Retrieve 8) nine.
Proof.
  unfold final, case. cbn [fold_left]. eexists. split.
  - deep 11%nat.
    + apply goes_s. unfold room; cbn; lia.
    + vm_compute; reflexivity.
    + apply goes_ret.
    + vm_compute; reflexivity.
    + apply goes_enter.
    + vm_compute; reflexivity.
    + apply goes_i. unfold room; cbn; lia.
    + vm_compute; reflexivity.
    + apply goes_ret.
    + vm_compute; reflexivity.
    + apply goes_ri. unfold own; cbn; lia.
    + vm_compute; reflexivity.
    + apply goes_prox. vm_compute. discriminate.
    + vm_compute; reflexivity.
    + apply goes_d. unfold own; cbn; lia.
    + vm_compute; reflexivity.
    + eapply goes_leave. reflexivity.
    + vm_compute; reflexivity.
    + apply goes_ij. unfold room; cbn; lia.
    + vm_compute; reflexivity.
    + apply goes_d. unfold own; cbn; lia.
    + vm_compute; reflexivity.
  - eexists. split; [rewrite isok_eq by (vm_compute; reflexivity); f_equal; f_equal; vm_compute; reflexivity|]. split; [vm_compute; reflexivity|]. apply goes_ret.
Qed.

Print Assumptions C32_calls_are_defined.
Print Assumptions C32_same_path_same_block.
Print Assumptions C32_new_blocks_are_fresh.
Print Assumptions C32_first_retrieval_is_new.
Print Assumptions C32_call_returns_to_the_path.
Print Assumptions C32_every_block_freed_once.
