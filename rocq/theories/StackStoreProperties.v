(** C36: the memory and the contents of the stacks over a history of plans and solutions. *)
From Coq Require Import List Bool Arith ZArith Lia.
From Verif Require Import Base StackModel StackProofs StackStoreModel StackStoreProofs StackStoreHist.
Import ListNotations.
Open Scope nat_scope.

(** ** Specification *)
(** every allocation belongs to exactly one stack of the current chain, with the shape its position calls for *)
Record owned (n : nat) (s : store) : Prop := {
  o_apart : forall c, chain s = Some c -> NoDup (map arr c);
  o_once : NoDup (map fst (heap s));
  o_all : forall c b, chain s = Some c -> (In b (heap s) <-> exists k h, nth_error c k = Some h /\ b = (arr h, k <? n)) }.
(** the versions of the inputs of the layers of a stack *)
Definition inputs_of (s : store) (h : held) : list nat := map (ver s) (seq (i1 (hk h)) (S (i2 (hk h)) - i1 (hk h))).
(** every stack's matrices were computed from the present inputs of its layers *)
Definition matrices_current (s : store) : Prop := forall c k h, chain s = Some c -> nth_error c k = Some h -> rt (cont s (arr h)) = Some (inputs_of s h).
(** every joined stack's auxiliary matrices were computed from the present inputs, for the two stacks it is joined from now *)
Definition auxiliary_current (s : store) : Prop := forall c k h p q hp, chain s = Some c -> nth_error c k = Some h ->
  parents (hk h) = Some (p, q) -> nth_error c p = Some hp -> ax (cont s (arr h)) = Some (i2 (hk hp), inputs_of s h).
(** between any two updates of the plan there is a solution *)
Fixpoint solved_between (waiting : bool) (os : list sop) : bool :=
  match os with
  | [] => true
  | Update _ :: os => negb waiting && solved_between true os
  | Solve :: os => solved_between false os
  | Touch _ :: os => solved_between waiting os
  end.
(** stacks that two plans have in common are split at the same layer *)
Definition split_of (t : list stk) (x : stk) : option nat :=
  match parents x with Some (p, _) => match nth_error t p with Some y => Some (i2 y) | None => None end | None => None end.
Definition same_splits (n nd : nat) (d d' : nat -> nat -> bool) : Prop := forall t t' x x',
  build (n * n) n nd (S (n * nd)) d = Some (Ok t) -> build (n * n) n nd (S (n * nd)) d' = Some (Ok t') -> In x t -> In x' t' ->
  i1 x = i1 x' -> i2 x = i2 x' -> split_of t x = split_of t' x'.

(** ** Memory *)
(** No history frees anything twice, frees what it does not own or loses an allocation; destroying the handle frees the rest. *)
Theorem C36_owned_by_one_stack n nd full os : exists s, srun n nd full os store0 = Ok s /\ owned n s /\ (chain s = None -> heap s = []) /\ destroy n s = Ok [].
Proof.
  destruct (run_mem n nd full os store0 (c_mem _ _ _ _ _ _ (start n nd false full))) as (s & E & V). exists s. split; [exact E|]. split.
  - split; [exact (v_arr n nd s V) | exact (v_heap n nd s V) | exact (v_in n nd s V)].
  - split; [exact (v_none n nd s V) | exact (destroy_ok n nd s V)].
Qed.
(** A stack with the layers of an old one keeps its arrays and their contents; the others get arrays of their own. *)
Theorem C36_handed_over n nd full os d s s' c' k h : srun n nd full os store0 = Ok s -> update n nd d s = Ok s' -> chain s' = Some c' -> nth_error c' k = Some h ->
  (exists c ho, chain s = Some c /\ In ho c /\ i1 (hk ho) = i1 (hk h) /\ i2 (hk ho) = i2 (hk h) /\ arr h = arr ho /\ cont s' (arr h) = cont s (arr ho)) \/
  (forall c ho, chain s = Some c -> In ho c -> (i1 (hk ho) <> i1 (hk h) \/ i2 (hk ho) <> i2 (hk h)) /\ arr ho <> arr h).
Proof.
  intros E EU C' Ek. destruct (run_mem n nd full os store0 (c_mem _ _ _ _ _ _ (start n nd false full))) as (s0 & E0 & V). assert (s0 = s) by congruence. subst s0.
  destruct (update_ok n nd d s V) as (s1 & E1 & V1 & UP). assert (s1 = s') by congruence. subst s1. destruct UP as [(c1 & C1 & _ & W) UC _ _]. assert (c1 = c') by congruence. subst c1.
  destruct (W k h Ek) as [(o & ii & ho & Co & Eo & So & Ar & _)|(NF & L & _)].
  - left. apply same_layers_eq in So. destruct So. exists o, ho. split; [exact Co|]. split; [eapply nth_error_In; eauto|]. split; [assumption|]. split; [assumption|]. split; [exact Ar|].
    rewrite UC, Ar. destruct (v_alloc n nd s V o ii ho Co Eo) as [_ L]. assert (nxt s <=? arr ho = false) as -> by (apply Nat.leb_gt; exact L). reflexivity.
  - right. intros c ho Co I. apply In_nth_error in I. destruct I as [ii Eo]. specialize (NF c ii ho Co Eo). destruct (v_alloc n nd s V c ii ho Co Eo) as [_ L']. split; [|lia].
    destruct (Nat.eq_dec (i1 (hk ho)) (i1 (hk h))) as [Q1|]; [|auto]. destruct (Nat.eq_dec (i2 (hk ho)) (i2 (hk h))) as [Q2|]; [|auto]. rewrite (proj2 (same_layers_eq _ _)) in NF; [discriminate | auto].
Qed.

(** ** Contents *)
Lemma paced_is waiting os : paced waiting os = solved_between waiting os.
Proof. revert waiting. induction os as [|[d|l|] os IH]; intros w; cbn; rewrite ?IH; reflexivity. Qed.
(** After a solution the matrices of every stack are those of the present inputs, if every plan was solved with before the next. *)
Theorem C36_matrices_current n nd full os s s' : srun n nd full os store0 = Ok s -> solved_between false os = true \/ full = true -> solve n full s = Ok s' -> matrices_current s'.
Proof.
  intros E PC ES. destruct (run_cinv n nd false full os false store0 (start n nd false full)) as (s0 & pd & E0 & CI).
  - rewrite paced_is. tauto.
  - discriminate.
  - discriminate.
  - assert (s0 = s) by congruence. subst s0. destruct (chain s) as [c|] eqn:C; [|unfold solve in ES; rewrite C in ES; discriminate].
    destruct (solve_ok n nd false full pd s c CI C) as (s1 & c1 & E1 & _ & C1 & _ & _ & EV & G). assert (s1 = s') by congruence. subst s1.
    intros c0 k h Q Ek. assert (c0 = c1) by congruence. subst c0. unfold inputs_of. rewrite EV. exact (proj1 (G k h Ek)).
Qed.
(** The auxiliary matrices too, if moreover stacks common to two plans are split alike, or everything is rebuilt. *)
Theorem C36_auxiliary_current n nd full os s s' : srun n nd full os store0 = Ok s ->
  (solved_between false os = true /\ forall d d', In (Update d) os -> In (Update d') os -> same_splits n nd d d') \/ full = true -> solve n full s = Ok s' -> auxiliary_current s'.
Proof.
  intros E PC ES.
  assert (AG : full = false -> forall d d', In (Update d) os -> In (Update d') os -> agree n nd d d').
  { intros HF d d' I I'. destruct PC as [[_ PC]|PC]; [|congruence]. intros t t' x x' Et Et' Ix Ix' SL. apply same_layers_eq in SL. destruct SL. exact (PC d d' I I' t t' x x' Et Et' Ix Ix' H H0). }
  destruct (run_cinv n nd true full os false store0 (start n nd true full)) as (s0 & pd & E0 & CI).
  - rewrite paced_is. tauto.
  - intros _ HF. exact (AG HF).
  - intros _ _ c Q. discriminate.
  - assert (s0 = s) by congruence. subst s0. destruct (chain s) as [c|] eqn:C; [|unfold solve in ES; rewrite C in ES; discriminate].
    destruct (solve_ok n nd true full pd s c CI C) as (s1 & c1 & E1 & _ & C1 & _ & _ & EV & G). assert (s1 = s') by congruence. subst s1.
    intros c0 k h p q hp Q Ek Ep Ehp. assert (c0 = c1) by congruence. subst c0. unfold inputs_of. rewrite EV. apply (proj2 (G k h Ek) eq_refl). unfold split_at. now rewrite Ep, nth_error_map, Ehp.
Qed.
(** In particular while the flags stay the same. *)
Theorem C36_one_plan n nd d os s s' : (forall d', In (Update d') os -> d' = d) -> solved_between false os = true -> srun n nd false os store0 = Ok s -> solve n false s = Ok s' ->
  matrices_current s' /\ auxiliary_current s'.
Proof.
  intros ONE PC E ES. split; [exact (C36_matrices_current n nd false os s s' E (or_introl PC) ES)|]. apply (C36_auxiliary_current n nd false os s s' E); [|exact ES]. left. split; [exact PC|].
  intros d1 d2 I1 I2. rewrite (ONE d1 I1), (ONE d2 I2). intros t t' x x' Et Et' Ix Ix' H1 H2. assert (t' = t) by congruence. subst t'.
  destruct (build_ok n nd d (S (n * nd)) ltac:(lia)) as (t0 & E0 & K). assert (t0 = t) by congruence. subst t0. apply In_nth_error in Ix, Ix'. destruct Ix as [k Ek], Ix' as [k' Ek'].
  assert (k = k') by (exact (k_nodup _ _ _ _ K k k' x x' Ek Ek' H1 H2)). subst k'. assert (x = x') by congruence. now subst x'.
Qed.

(** ** Refutations *)
Definition fl (l : list (list nat)) (i j : nat) : bool := existsb (Nat.eqb i) (nth j l []).
Definition none_fixed := fl [[0; 1]].
Definition all_fixed := fl [[]].
(** Updating the plan twice without a solution in between: the arrays of a new stack, never computed, pass for computed. *)
Definition twice : list sop := [Update none_fixed; Solve; Update all_fixed; Update all_fixed].
Theorem C36_update_twice_refuted : exists s s' c h, srun 2 1 false twice store0 = Ok s /\ solve 2 false s = Ok s' /\ chain s' = Some c /\ In h c /\
  i1 (hk h) = 0 /\ i2 (hk h) = 1 /\ needed (hk h) = true /\ rt (cont s' (arr h)) = None /\ ~ matrices_current s'.
Proof.
  assert (K : match srun 2 1 false twice store0 with
              | Ok s => match solve 2 false s with
                        | Ok s' => match chain s' with
                                   | Some c => match nth_error c 2 with
                                               | Some h => Nat.eqb (i1 (hk h)) 0 && Nat.eqb (i2 (hk h)) 1 && needed (hk h) && match rt (cont s' (arr h)) with None => true | Some _ => false end
                                               | None => false end
                                   | None => false end
                        | _ => false end
              | _ => false end = true) by (vm_compute; reflexivity).
  generalize twice K. clear K. intros os K. destruct (srun 2 1 false os store0) as [s|e|]; try discriminate K. exists s. destruct (solve 2 false s) as [s'|e|]; try discriminate K. exists s'.
  destruct (chain s') as [c|] eqn:C; try discriminate K. exists c. destruct (nth_error c 2) as [h|] eqn:H; try discriminate K. exists h.
  apply andb_true_iff in K. destruct K as [K K4]. apply andb_true_iff in K. destruct K as [K K3]. apply andb_true_iff in K. destruct K as [K1 K2]. apply Nat.eqb_eq in K1, K2.
  split; [reflexivity|]. split; [reflexivity|]. split; [reflexivity|]. split; [eapply nth_error_In; eauto|]. split; [exact K1|]. split; [exact K2|]. split; [exact K3|].
  destruct (rt (cont s' (arr h))) eqn:R; [discriminate K4|]. split; [reflexivity|]. intros M. specialize (M c 2 h C H). congruence.
Qed.
(** A stack common to two plans but joined differently keeps the auxiliary matrices of the old joint. *)
Definition split_low := fl [[]; [2]; [0]].
Definition split_high := fl [[]; [0]; [0]].
Definition resplit : list sop := [Update split_low; Solve; Update split_high].
Theorem C36_other_joint_refuted : exists s s' c h hp, srun 3 3 false resplit store0 = Ok s /\ solved_between false resplit = true /\ solve 3 false s = Ok s' /\ chain s' = Some c /\ In h c /\
  i1 (hk h) = 0 /\ i2 (hk h) = 2 /\ (exists q, parents (hk h) = Some (0, q)) /\ nth_error c 0 = Some hp /\ i2 (hk hp) = 0 /\
  (exists v, ax (cont s' (arr h)) = Some (1, v)) /\ ~ auxiliary_current s'.
Proof.
  assert (SB : solved_between false resplit = true) by reflexivity.
  assert (K : match srun 3 3 false resplit store0 with
              | Ok s => match solve 3 false s with
                        | Ok s' => match chain s' with
                                   | Some c => match nth_error c 4, nth_error c 0 with
                                               | Some h, Some hp => Nat.eqb (i1 (hk h)) 0 && Nat.eqb (i2 (hk h)) 2 && match parents (hk h) with Some (0, _) => true | _ => false end && Nat.eqb (i2 (hk hp)) 0 &&
                                                                    match ax (cont s' (arr h)) with Some (1, _) => true | _ => false end
                                               | _, _ => false end
                                   | None => false end
                        | _ => false end
              | _ => false end = true) by (vm_compute; reflexivity).
  generalize resplit K SB. clear K SB. intros os K SB. destruct (srun 3 3 false os store0) as [s|e|]; try discriminate K. exists s. destruct (solve 3 false s) as [s'|e|]; try discriminate K. exists s'.
  destruct (chain s') as [c|] eqn:C; try discriminate K. exists c. destruct (nth_error c 4) as [h|] eqn:H; try discriminate K. exists h. destruct (nth_error c 0) as [hp|] eqn:HP; try discriminate K. exists hp.
  apply andb_true_iff in K. destruct K as [K K5]. apply andb_true_iff in K. destruct K as [K K4]. apply andb_true_iff in K. destruct K as [K K3]. apply andb_true_iff in K. destruct K as [K1 K2]. apply Nat.eqb_eq in K1, K2, K4.
  split; [reflexivity|]. split; [exact SB|]. split; [reflexivity|]. split; [reflexivity|]. split; [eapply nth_error_In; eauto|]. split; [exact K1|]. split; [exact K2|].
  destruct (parents (hk h)) as [[[|p] q]|] eqn:P; try discriminate K3. split; [now exists q|]. split; [reflexivity|]. split; [exact K4|].
  destruct (ax (cont s' (arr h))) as [[[|[|m]] v]|] eqn:A; try discriminate K5. split; [now exists v|]. intros M. specialize (M c 4 h 0 q hp C H P HP). rewrite A, K4 in M. congruence.
Qed.

(** ** Cases *)
Definition steady : list sop := [Update split_low; Touch 1; Solve; Solve; Update split_low; Solve; Touch 2; Touch 0].
Example C36_case_steady : solved_between false steady = true /\
  match srun 3 3 false steady store0 with
  | Ok s => match solve 3 false s with
            | Ok s' => match chain s' with
                       | Some c => match nth_error c 4 with Some h => match rt (cont s' (arr h)) with Some [1; 1; 1] => true | _ => false end | None => false end && Nat.eqb (length c) 6 && Nat.eqb (length (heap s')) 6
                       | None => false end
            | _ => false end
  | _ => false end = true.
Proof. split; [reflexivity | vm_compute; reflexivity]. Qed.
(** a plan change that keeps one joined stack and drops another *)
Example C36_case_handed : match srun 3 3 false [Update split_low; Solve; Update split_high; Solve] store0 with
  | Ok s => match chain s with Some c => map (fun h => (i1 (hk h), i2 (hk h), arr h)) c | None => [] end | _ => [] end
  = [(0, 0, 0); (1, 1, 1); (2, 2, 2); (1, 2, 5); (0, 2, 4)].
Proof. vm_compute. reflexivity. Qed.

Print Assumptions C36_owned_by_one_stack.
Print Assumptions C36_handed_over.
Print Assumptions C36_matrices_current.
Print Assumptions C36_auxiliary_current.
Print Assumptions C36_one_plan.
Print Assumptions C36_update_twice_refuted.
Print Assumptions C36_other_joint_refuted.
