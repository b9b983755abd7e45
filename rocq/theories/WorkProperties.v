(** C35: the work memory. *)
From Coq Require Import List Bool ZArith Lia.
From Verif Require Import Base WorkModel WorkProofs WorkFree.
Import ListNotations.
Open Scope Z_scope.

(** * Specification *)
(** Sizes a handle can have: work_init is given n_quad > 0 and counts that are not negative. *)
Definition sizes (d : dims) : Prop :=
  0 < n_quad_v d /\ 0 <= n_quad_v_x d /\ 0 <= n_stokes d /\ 0 <= n_derivs d /\ 0 <= n_layers d /\ 0 <= n_umus_v d.
(** Lengths are sizes in bytes. *)
Definition lengths (cs : list wop) : Prop := forall n, In (Page n) cs -> 0 <= n.
(** Two arrays share no byte. *)
Definition apart (r r' : region) : Prop :=
  forall b x y, rblock r = Some b -> rblock r' = Some b -> roff r <= x < roff r + rlen r -> roff r' <= y < roff r' + rlen r' -> x <> y.
(** An array is inside a block that is in use. *)
Definition usable (h : heap) (r : region) : Prop :=
  rlen r <= 0 \/ exists b n, rblock r = Some b /\ In (b, n) (inuse h) /\ 0 <= roff r /\ roff r + rlen r <= n /\ roff r mod 16 = 0.
(** The arrays the running function can use are those of [top]: its own and its callers'. *)
Definition safe (s : wstate) : Prop :=
  Forall (usable (hp (sh s))) (fregs (top s)) /\
  (forall i j r r', i <> j -> nth_error (fregs (top s)) i = Some r -> nth_error (fregs (top s)) j = Some r' -> apart r r').

Lemma sizes_ok d : sizes d -> dims_ok d.
Proof. exact (fun H => H). Qed.
Lemma lengths_ok cs : lengths cs -> Forall wop_ok cs.
Proof. intros H. apply Forall_forall. intros [n| | | |] I; cbn; auto. Qed.
Lemma fop_nth {A} (P : A -> A -> Prop) l : (forall a b, P a b -> P b a) -> ForallOrdPairs P l ->
  forall i j a b, i <> j -> nth_error l i = Some a -> nth_error l j = Some b -> P a b.
Proof.
  intros SY. induction 1 as [|x l F _ IH]; intros i j a b N I J; [destruct i; discriminate|].
  rewrite Forall_forall in F. destruct i as [|i], j as [|j]; cbn in I, J.
  - congruence.
  - injection I as <-. apply F. eapply nth_error_In; eauto.
  - injection J as <-. apply SY, F. eapply nth_error_In; eauto.
  - eapply (IH i j); eauto.
Qed.
Lemma sinv_safe d s : sinv d s -> safe s.
Proof.
  intros (W & F & _). inversion F as [|? ? (R & P & D) _]; subst. split.
  - eapply Forall_impl; [|exact P]. intros r [H|(l & b & H1 & H2 & (H3 & H4) & H5 & _)]; [now left|]. right.
    exists b, (lsize d (sh s) l). refine (conj H1 (conj (w_use d _ W _ _ H2) (conj H3 (conj H5 H4)))).
  - assert (AP : forall r r', disjoint r r' -> apart r r').
    { intros r r' H b x y A B X Y ->. apply (H b y). split; split; auto. }
    intros i j r r' N I J. apply AP. eapply (fop_nth disjoint); eauto. intros a b H c x [A B]. apply (H c x). auto.
Qed.

(** Whatever is asked for and whatever is called and returned from, no array in use shares a byte with another, each
    lies in memory that is in use, and nothing is freed that is not in use; the one failure is running out of pages. *)
Theorem C35_arrays_apart d cs : sizes d -> lengths cs ->
  wsteps d cs start = Err (-1) \/ exists s, wsteps d cs start = Ok s /\ safe s.
Proof.
  intros D L. destruct (wsteps_ok d cs (min_page_pos d D) (lengths_ok cs L) start (start_sinv d)) as [E|(s & E & S)]; [now left|].
  right. exists s. split; [exact E | eapply sinv_safe; eauto].
Qed.

(** The arrays a function had before it called another are the ones it has afterwards. *)
Fixpoint level (k : nat) (cs : list wop) : option nat :=
  match cs with
  | [] => Some k
  | Call :: cs => level (S k) cs
  | Return :: cs => match k with O => None | S k => level k cs end
  | _ :: cs => level k cs
  end.
Lemma level_back d cs : forall k s s' pre f rest, level k cs = Some O -> callers s = pre ++ f :: rest -> length pre = k ->
  wsteps d cs s = Ok s' -> callers s' = f :: rest.
Proof.
  induction cs as [|c cs IH]; intros k s s' pre f rest L C K; cbn [level wsteps] in *.
  - injection L as ->. destruct pre; [|discriminate]. intros E. injection E as <-. exact C.
  - assert (G : forall r s1, given s r = Ok s1 -> callers s1 = callers s) by (intros [[[w p] rs]| |] s1 E; try discriminate; injection E as <-; reflexivity).
    destruct c as [n|t|v t m| |]; cbn [wstep].
    + destruct (given s _) as [s1| |] eqn:E; try discriminate. intros H. apply (IH k s1 s' pre f rest L); auto. rewrite (G _ _ E). exact C.
    + destruct (given s _) as [s1| |] eqn:E; try discriminate. intros H. apply (IH k s1 s' pre f rest L); auto. rewrite (G _ _ E). exact C.
    + destruct (given s _) as [s1| |] eqn:E; try discriminate. intros H. apply (IH k s1 s' pre f rest L); auto. rewrite (G _ _ E). exact C.
    + intros H. apply (IH (S k) _ s' (top s :: pre) f rest L) in H; auto; cbn; [now rewrite C | lia].
    + destruct k as [|k]; [discriminate|]. destruct pre as [|g pre]; [discriminate|]. cbn in C. rewrite C. intros H.
      apply (IH k _ s' pre f rest L) in H; auto; cbn in *; lia.
Qed.
Lemma wsteps_app d cs cs' : forall s, wsteps d (cs ++ cs') s = match wsteps d cs s with Ok s => wsteps d cs' s | Err e => Err e | UB => UB end.
Proof. induction cs as [|c cs IH]; intros s; [reflexivity|]. cbn [app wsteps]. destruct (wstep d c s); auto. Qed.

Theorem C35_callers_keep_theirs d cs body s s' : sizes d -> lengths cs -> lengths body -> level 0 body = Some O ->
  wsteps d cs start = Ok s -> wsteps d (Call :: body ++ [Return]) s = Ok s' ->
  top s' = top s /\ callers s' = callers s /\ safe s'.
Proof.
  intros D L LB B E E'. assert (S : sinv d s) by exact (wsteps_sinv d cs start s (min_page_pos d D) (lengths_ok cs L) (start_sinv d) E).
  assert (S' : sinv d s').
  { refine (wsteps_sinv d _ s s' (min_page_pos d D) _ S E'). apply lengths_ok. intros n I. apply LB. destruct I as [I|I]; [discriminate|].
    apply in_app_iff in I. destruct I as [I|[I|[]]]; [exact I | discriminate]. }
  cbn [wsteps wstep] in E'. rewrite wsteps_app in E'.
  set (s0 := {| sh := sh s; top := top s; callers := top s :: callers s |}) in *.
  destruct (wsteps d body s0) as [s1| |] eqn:E1; try discriminate.
  pose proof (level_back d body 0 s0 s1 [] (top s) (callers s) B eq_refl eq_refl E1) as C1.
  cbn [wsteps wstep] in E'. rewrite C1 in E'. injection E' as <-. cbn in *. split; [reflexivity|]. split; [reflexivity | eapply sinv_safe; eauto].
Qed.

(** * Handed out again *)
(** A function that makes the same requests again, after returning, gets the same arrays and allocates nothing. *)
Definition only_requests (cs : list wop) : Prop := ~ In Call cs /\ ~ In Return cs.
Definition equal_arrays (r r' : region) : Prop := rlen r' = rlen r /\ (0 < rlen r -> r' = r).
Theorem C35_same_arrays_again d cs body s s1 : sizes d -> lengths cs -> lengths body -> only_requests body ->
  wsteps d cs start = Ok s -> wsteps d (Call :: body) s = Ok s1 ->
  exists s2 mine, wsteps d (Return :: Call :: body) s1 = Ok s2 /\ sh s2 = sh s1 /\
    fregs (top s1) = mine ++ fregs (top s) /\ Forall2 equal_arrays (mine ++ fregs (top s)) (fregs (top s2)) /\ callers s2 = callers s1.
Proof.
  intros D L LB [N1 N2] E E1. assert (S : sinv d s) by exact (wsteps_sinv d cs start s (min_page_pos d D) (lengths_ok cs L) (start_sinv d) E).
  assert (RQ : Forall request body) by (apply Forall_forall; intros [n|t|v t k| |] I; cbn; auto).
  cbn [wsteps wstep] in E1. set (s0 := {| sh := sh s; top := top s; callers := top s :: callers s |}) in *.
  assert (S0 : sinv d s0) by (refine (wsteps_sinv d [Call] s _ (min_page_pos d D) _ S eq_refl); repeat constructor).
  assert (C1 : callers s1 = top s :: callers s).
  { apply (level_back d body 0 s0 s1 [] (top s) (callers s)); [|reflexivity|reflexivity|exact E1].
    clear - N1 N2. induction body as [|c body IH]; [reflexivity|]. assert (IH' : level 0 body = Some O) by (apply IH; intros I; [apply N1 | apply N2]; now right).
    destruct c; cbn [level]; try exact IH'; exfalso; [apply N1 | apply N2]; now left. }
  destruct (run_again d body (min_page_pos d D) (lengths_ok body LB) RQ s0 s1 S0 E1 (top s) (top s :: callers s) (fregs (top s)) eq_refl (same_refl _) (sh s1) (ext_refl _ _))
    as (f' & rs1 & R1 & R2 & R3 & R4).
  exists {| sh := sh s1; top := f'; callers := top s :: callers s |}, rs1. cbn [wsteps wstep]. rewrite C1. cbn [sh top callers].
  refine (conj R1 (conj eq_refl (conj R3 (conj R4 eq_refl)))).
Qed.
(** With returns in between a second round can allocate: a page grown later moves the arrays of the first call. *)
Definition d10 : dims := {| n_quad_v := 10; n_quad_v_x := 10; n_stokes := 1; n_derivs := 2; n_layers := 4; n_umus_v := 0 |}.
Definition round_ : list wop := [Page 1600; Call; Page 1600; Page 1600; Page 3200; Return; Call; Page 3200; Return].
Definition after_rounds (k : nat) : outcome wstate := wsteps d10 (concat (repeat (Call :: round_ ++ [Return]) k)) start.
Definition next_of (o : outcome wstate) : nat := match o with Ok s => next (hp (sh s)) | _ => O end.
Theorem C35_second_round_allocates_refuted :
  ~ (forall d cs s s', sizes d -> lengths cs -> wsteps d (Call :: cs ++ [Return]) start = Ok s -> wsteps d (Call :: cs ++ [Return]) s = Ok s' -> hp (sh s') = hp (sh s)).
Proof.
  intros H. assert (N : match wsteps d10 (Call :: round_ ++ [Return]) start with
    | Ok s => match wsteps d10 (Call :: round_ ++ [Return]) s with Ok s' => negb (Nat.eqb (next (hp (sh s'))) (next (hp (sh s)))) | _ => false end
    | _ => false end = true) by (vm_compute; reflexivity).
  specialize (H d10 round_). revert N H. generalize (Call :: round_ ++ [Return]). intros cs N H.
  destruct (wsteps d10 cs start) as [s| |]; [|discriminate N|discriminate N]. specialize (H s).
  destruct (wsteps d10 cs s) as [s'| |]; [|discriminate N|discriminate N]. specialize (H s').
  apply negb_true_iff, Nat.eqb_neq in N. apply N. f_equal. apply H; try reflexivity.
  - repeat split; cbn; lia.
  - intros n I. cbn in I. repeat (destruct I as [I|I]; [try discriminate; injection I as <-; lia|]). destruct I.
Qed.
Example C35_third_round_does_not : next_of (after_rounds 3) = next_of (after_rounds 2).
Proof. vm_compute. reflexivity. Qed.

(** * Bounded memory *)
(** What is held at once at any moment of the computation: at most [K t] arrays of each shape, [KV v] arrays of pointers, and no single
    request from the pages above [M] bytes.  Then the memory in use is bounded, however long the computation. *)
Definition held (s : wstate) (K : wtype -> nat) (KV : vtype -> nat) : Prop :=
  (forall t, ilist (fpos (top s)) t <= K t)%nat /\ (forall v, ilistv (fpos (top s)) v <= KV v)%nat.
Definition limit (d : dims) (M : Z) (K : wtype -> nat) (KV : vtype -> nat) : Z :=
  1024 * Z.max (min_page d) (M + 15) +
  fold_right (fun t a => Z.of_nat (K t) * asize d t + a) 0 wtypes + fold_right (fun v a => Z.of_nat (KV v) * vsize d v + a) 0 vtypes.
Definition bytes (h : heap) : Z := fold_right (fun e a => snd e + a) 0 (inuse h).
Lemma within_of d M K KV : forall cs s, (forall pre post s', cs = pre ++ post -> wsteps d pre s = Ok s' -> held s' K KV) ->
  (forall n, In (Page n) cs -> 0 <= n <= M) -> within d M K KV cs s.
Proof.
  induction cs as [|c cs IH]; intros s H L; cbn [within].
  - destruct (H [] [] s eq_refl eq_refl). auto.
  - destruct (H [] (c :: cs) s eq_refl eq_refl) as [A B]. refine (conj A (conj B (conj _ _))).
    + intros n ->. apply L. now left.
    + intros s1 E. apply IH; [|intros n I; apply L; now right]. intros pre post s' -> E'. apply (H (c :: pre) post s' eq_refl). cbn [wsteps]. now rewrite E.
Qed.
Lemma round_le l : 0 <= l -> round l <= l + 15.
Proof.
  intros H. unfold round, WORK_ALIGNMENT. pose proof (Z.div_mod l 16 ltac:(lia)). pose proof (Z.mod_pos_bound l 16 ltac:(lia)).
  destruct (Z.eqb_spec (l mod 16) 0); cbn [negb]; lia.
Qed.
Theorem C35_bounded d M K KV cs s : sizes d -> 0 <= M -> (forall n, In (Page n) cs -> 0 <= n <= M) ->
  (forall pre post s', cs = pre ++ post -> wsteps d pre start = Ok s' -> held s' K KV) ->
  wsteps d cs start = Ok s -> bytes (hp (sh s)) <= limit d M K KV.
Proof.
  intros D HM L H E.
  assert (Q0 : small d M K KV (sh start)).
  { split; cbn; [|intros; lia|intros; lia]. intros _. pose proof (min_page_pos d D). unfold psize. lia. }
  destruct (within_small d M K KV cs D start s (start_sinv d) Q0 (within_of d M K KV cs start H L) E) as [(W & _) Q].
  pose proof (total_small d M K KV (sh s) D W Q) as T. unfold total in T. unfold bytes, limit. fold (tsum K d) (vsum KV d).
  unfold psize in T. pose proof (round_le M HM). unfold WORK_MAX_PAGES in T. lia.
Qed.

(** * Freeing *)
(** work_free frees every block once; what is left are the arrays of shape DQQ, which it does not name. *)
Theorem C35_freed d cs s : sizes d -> lengths cs -> wsteps d cs start = Ok s ->
  exists h, work_free (sh s) = Ok h /\ (forall b n, In (b, n) (inuse h) <-> In b (entries (lists (sh s) DQQ)) /\ n = asize d DQQ).
Proof.
  intros D L E. destruct (wsteps_sinv d cs start s (min_page_pos d D) (lengths_ok cs L) (start_sinv d) E) as (W & _).
  destruct (work_free_ok d _ W) as (h & F & U). exists h. split; [exact F|]. intros b n. rewrite U. split.
  - intros (k & N & ->). split; [eapply nth_error_In; eauto | reflexivity].
  - intros [I ->]. apply In_nth_error in I. destruct I as [k N]. now exists k.
Qed.
Definition no_dqq (c : wop) : Prop := match c with One DQQ => False | Many _ DQQ _ => False | _ => True end.
Lemma step_dqq d c s s' : no_dqq c -> wstep d c s = Ok s' -> entries (lists (sh s') DQQ) = entries (lists (sh s) DQQ).
Proof.
  intros N. destruct c as [n|t|v t k| |]; cbn [wstep].
  - unfold get_page, get_common, renew. repeat match goal with |- context [if ?b then _ else _] => destruct b | |- context [free ?a ?b] => destruct (free a b) end;
      cbn; intros E; try discriminate; injection E as <-; reflexivity.
  - unfold get1, new_entry, entry. cbn [malloc].
    destruct (if Nat.leb (length (entries (lists (sh s) t))) (ilist (fpos (top s)) t) then _ else _) as [w1| |] eqn:E1; try (intros; discriminate).
    destruct (nth_error _ _); cbn; intros E; try discriminate. injection E as <-. cbn.
    destruct (Nat.leb _ _); [|injection E1 as <-; reflexivity]. unfold write in E1. destruct (_ && _); [|discriminate]. injection E1 as <-. cbn.
    destruct t; try contradiction; reflexivity.
  - unfold getv, new_entry, entry. cbn [malloc].
    destruct (if Nat.leb (length (entries (listsv (sh s) v))) (ilistv (fpos (top s)) v) then _ else _) as [w1| |] eqn:E1; try (intros; discriminate).
    destruct (if Z.of_nat (length (entries (lists w1 t))) <=? _ then _ else _) as [w2| |] eqn:E2; try (intros; discriminate).
    destruct (nth_error _ _); [|discriminate]. destruct (take _ _ _ _); cbn; intros E; try discriminate. injection E as <-. cbn.
    assert (lists w1 = lists (sh s)).
    { destruct (Nat.leb _ _); [|injection E1 as <-; reflexivity]. unfold write in E1. destruct (_ && _); [|discriminate]. injection E1 as <-. reflexivity. }
    destruct (_ <=? _); [|injection E2 as <-; now rewrite H].
    destruct (fill _ _ _ _) as [[h l]| |]; try discriminate. injection E2 as <-. cbn. destruct t; try contradiction; cbn; now rewrite H.
  - intros E. injection E as <-. reflexivity.
  - destruct (callers s); intros E; injection E as <-; reflexivity.
Qed.
Theorem C35_nothing_left d cs s : sizes d -> lengths cs -> (forall c, In c cs -> no_dqq c) -> wsteps d cs start = Ok s ->
  exists h, work_free (sh s) = Ok h /\ inuse h = [].
Proof.
  intros D L Q E. destruct (C35_freed d cs s D L E) as (h & F & U). exists h. split; [exact F|].
  assert (X : entries (lists (sh s) DQQ) = []).
  { assert (G : forall cs s s', (forall c, In c cs -> no_dqq c) -> wsteps d cs s = Ok s' -> entries (lists (sh s') DQQ) = entries (lists (sh s) DQQ)).
    { clear. induction cs as [|c cs IH]; intros s s' Q; cbn [wsteps]; [intros E; injection E as <-; reflexivity|].
      destruct (wstep d c s) as [s1| |] eqn:E1; try discriminate. intros E. rewrite (IH s1 s'); [|intros; apply Q; now right|exact E].
      eapply step_dqq; [|exact E1]. apply Q. now left. }
    rewrite (G cs start s Q E). reflexivity. }
  destruct (inuse h) as [|[b n] u]; [reflexivity|]. destruct (proj1 (U b n) (or_introl eq_refl)) as [I _]. rewrite X in I. destruct I.
Qed.
(** A computation that takes an n_quad_v by n_quad_v array from the lists leaks it. *)
Theorem C35_square_arrays_leak_refuted :
  ~ (forall d cs s h, sizes d -> lengths cs -> wsteps d cs start = Ok s -> work_free (sh s) = Ok h -> inuse h = []).
Proof.
  intros H.
  assert (K : match wsteps d10 [One DQQ] start with Ok s => match work_free (sh s) with Ok h => Nat.eqb (length (inuse h)) 1 | _ => false end | _ => false end = true) by (vm_compute; reflexivity).
  destruct (wsteps d10 [One DQQ] start) as [s| |] eqn:E; [|discriminate K|discriminate K]. destruct (work_free (sh s)) as [h| |] eqn:F; [|discriminate K|discriminate K].
  assert (Z : inuse h = []) by (eapply (H d10 [One DQQ]); eauto; [repeat split; cbn; lia | intros n [I|[]]; discriminate]).
  rewrite Z in K. discriminate K.
Qed.

(** * The hypotheses are met *)
Definition some_run : list wop := [One DXX; Many DERIVS_V DX 2; Page 100; Call; Page 3000; One DXX; Many BOTH_V DXX2 5; Return; One DXX; Page 40].
Example C35_run_exists : exists s, wsteps d10 some_run start = Ok s /\ length (fregs (top s)) = 7%nat /\ bytes (hp (sh s)) = 23440.
Proof.
  assert (K : match wsteps d10 some_run start with Ok s => Nat.eqb (length (fregs (top s))) 7 && (bytes (hp (sh s)) =? 23440) | _ => false end = true) by (vm_compute; reflexivity).
  destruct (wsteps d10 some_run start) as [s| |]; [|discriminate K|discriminate K]. apply andb_prop in K. destruct K as [A B]. exists s.
  apply Nat.eqb_eq in A. apply Z.eqb_eq in B. auto.
Qed.
Example C35_run_allowed : sizes d10 /\ lengths some_run /\ (forall c, In c some_run -> no_dqq c).
Proof.
  split; [repeat split; cbn; lia|]. split.
  - intros n I. cbn in I. repeat (destruct I as [I|I]; [try discriminate; injection I as <-; lia|]). destruct I.
  - intros c I. cbn in I. repeat (destruct I as [<-|I]; [exact Logic.I|]). destruct I.
Qed.
Example C35_body : level 0 [Page 3000; Call; One DX; Return; One DXX] = Some O.
Proof. reflexivity. Qed.
(** Running out of pages does happen. *)
Example C35_out_of_pages : wsteps d10 (repeat (Page 1600) 1025) start = Err (-1).
Proof. vm_compute. reflexivity. Qed.

Print Assumptions C35_arrays_apart.
Print Assumptions C35_callers_keep_theirs.
Print Assumptions C35_same_arrays_again.
Print Assumptions C35_second_round_allocates_refuted.
Print Assumptions C35_bounded.
Print Assumptions C35_freed.
Print Assumptions C35_nothing_left.
Print Assumptions C35_square_arrays_leak_refuted.
