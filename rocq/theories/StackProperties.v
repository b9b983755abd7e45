(** C22: the plan of layer stacks. *)
From Coq Require Import List Bool Arith Lia.
From Verif Require Import Base StackModel StackProofs.
Import ListNotations.
Open Scope nat_scope.

(** ** Specification.
    [flags i j]: layer i varies with derivative j.  The plan is what build_stack_chain writes into the table of n_layers *
    n_layers stacks that xrtm_update_varied_layers allocates (src/xrtm_interface.c 5455); [fuel] bounds the rounds of its
    endless loop and None says it was not left within them. *)
Definition plan_is (n nd : nat) (flags : nat -> nat -> bool) (t : list stk) : Prop :=
  exists fuel, build (n * n) n nd fuel flags = Some (Ok t).
(** the layers a to b form a longest run of layers that do not vary with derivative j *)
Definition longest_run (n : nat) (flags : nat -> nat -> bool) (j a b : nat) : Prop :=
  a <= b < n /\ (forall i, a <= i <= b -> flags i j = false) /\ (a = 0 \/ flags (a - 1) j = true) /\ (S b = n \/ flags (S b) j = true).
(** how many later stacks were joined from stack k *)
Definition joined_from (t : list stk) (k : nat) : nat :=
  length (filter (fun x => match parents x with Some (p, q) => Nat.eqb p k | None => false end) t) +
  length (filter (fun x => match parents x with Some (p, q) => Nat.eqb q k | None => false end) t).

Lemma rounds_more size n nd : forall fuel fuel' p r, fuel <= fuel' -> rounds size n nd fuel p = Some r -> rounds size n nd fuel' p = Some r.
Proof.
  induction fuel as [|fuel IH]; intros fuel' p r L E; [discriminate|]. destruct fuel' as [|fuel']; [lia|]. cbn [rounds] in *.
  destruct (rows (gr p) n nd (seq 0 (n - 1)) {| pc := 0; pwhat := None |}) as [b|e|]; try exact E. destruct (Nat.eqb (pc b) 0); [exact E|].
  destruct (pwhat b) as [[r0 [s1 s2]]|]; [|exact E]. destruct (combine size n r0 s1 s2 p) as [q|e|]; try exact E. apply (IH fuel' q r); [lia | exact E].
Qed.
Lemma build_more size n nd flags fuel fuel' r : fuel <= fuel' -> build size n nd fuel flags = Some r -> build size n nd fuel' flags = Some r.
Proof.
  intros L. unfold build. destruct (size <? n); [auto|]. destruct (rounds size n nd fuel _) as [q|] eqn:E; [|discriminate]. now rewrite (rounds_more size n nd fuel fuel' _ q L E).
Qed.
Lemma plan_unique n nd flags t t' : plan_is n nd flags t -> plan_is n nd flags t' -> t = t'.
Proof.
  intros (f & E) (f' & E'). apply (build_more _ _ _ _ f (f + f')) in E; [|lia]. apply (build_more _ _ _ _ f' (f + f')) in E'; [|lia]. congruence.
Qed.
Lemma plan_facts n nd flags t : plan_is n nd flags t -> plan_ok n nd flags t.
Proof.
  intros (f & E). destruct (build_ok n nd flags (S (n * nd)) ltac:(lia)) as (t' & E' & K). enough (t = t') by congruence.
  apply (plan_unique n nd flags); [now exists f | now exists (S (n * nd))].
Qed.

(** ** Theorems *)

(** Planning ends after at most one round more than there are flags, never writes beyond the table and never follows a
    pointer that was not set; further rounds would change nothing. *)
Theorem C22_planning_ends n nd flags : exists t, plan_is n nd flags t /\ forall fuel, n * nd < fuel -> build (n * n) n nd fuel flags = Some (Ok t).
Proof.
  destruct (build_ok n nd flags (S (n * nd)) ltac:(lia)) as (t & E & _). exists t. split; [now exists (S (n * nd))|]. intros fuel L. exact (build_more _ _ _ _ _ _ _ L E).
Qed.

Theorem C22_single_layers_first n nd flags t k : plan_is n nd flags t -> k < n -> exists x, nth_error t k = Some x /\ i1 x = k /\ i2 x = k /\ parents x = None.
Proof. intros P. exact (k_first _ _ _ _ (plan_facts _ _ _ _ P) k). Qed.

(** every further stack is the concatenation of two earlier, vertically adjacent ones *)
Theorem C22_joined_from_adjacent n nd flags t k x : plan_is n nd flags t -> nth_error t k = Some x -> n <= k ->
  exists a b xa xb, parents x = Some (a, b) /\ a < k /\ b < k /\ nth_error t a = Some xa /\ nth_error t b = Some xb /\
    i1 x = i1 xa /\ S (i2 xa) = i1 xb /\ i2 xb = i2 x /\ i1 xa <= i2 xa /\ i1 xb <= i2 xb /\ i2 xb < n.
Proof.
  intros P E L. pose proof (plan_facts _ _ _ _ P) as K. destruct (k_rest _ _ _ _ K k x E L) as (a & b & xa & xb & H1 & H2 & H3 & H4 & H5 & H6 & H7 & H8).
  pose proof (k_rng _ _ _ _ K _ _ H4). pose proof (k_rng _ _ _ _ K _ _ H5). exists a, b, xa, xb. do 7 (split; [assumption || lia|]). lia.
Qed.

(** no two stacks of a plan have the same layers, so the check for duplicates never reports one *)
Lemma dup_zero : forall t seen, (forall k k' x x', nth_error t k = Some x -> nth_error t k' = Some x' -> i1 x = i1 x' -> i2 x = i2 x' -> k = k') ->
  (forall x, In x t -> seen (i1 x) (i2 x) = 0) -> duplicates seen t = 0.
Proof.
  induction t as [|x t IH]; intros seen U Z; [reflexivity|]. cbn [duplicates]. rewrite (Z x (or_introl eq_refl)).
  change (if 1 <? (0 + 1) mod 256 then 1 else 0) with 0. cbn [plus].
  assert (Q : forall y, In y t -> (i1 y = i1 x /\ i2 y = i2 x) -> False).
  { intros y I [E1 E2]. apply In_nth_error in I. destruct I as [k Ek]. specialize (U (S k) 0 y x Ek eq_refl E1 E2). discriminate. }
  apply IH.
  - intros k k' y y' E E' H1 H2. specialize (U (S k) (S k') y y' E E' H1 H2). congruence.
  - intros y I. destruct (Nat.eqb_spec (i1 y) (i1 x)) as [E1|]; cbn [andb]; [|apply Z; now right]. destruct (Nat.eqb_spec (i2 y) (i2 x)) as [E2|]; [exfalso; eapply Q; eauto | apply Z; now right].
Qed.
Theorem C22_no_repeats n nd flags t : plan_is n nd flags t -> NoDup (map (fun x => (i1 x, i2 x)) t) /\ duplicates (fun _ _ => 0) t = 0.
Proof.
  intros P. pose proof (plan_facts _ _ _ _ P) as K. split; [|apply dup_zero; [exact (k_nodup _ _ _ _ K) | reflexivity]].
  apply NoDup_nth_error. intros i j Hi E. rewrite map_length in Hi. rewrite !nth_error_map in E.
  destruct (nth_error t i) as [x|] eqn:Ex; [|apply nth_error_None in Ex; lia]. destruct (nth_error t j) as [y|] eqn:Ey; [|discriminate]. cbn in E. injection E as E1 E2.
  exact (k_nodup _ _ _ _ K i j x y Ex Ey E1 E2).
Qed.

Theorem C22_fits_table n nd flags t : plan_is n nd flags t -> 2 * length t <= n * (n + 1) /\ length t <= n * n.
Proof. intros P. pose proof (k_size _ _ _ _ (plan_facts _ _ _ _ P)) as L. split; [exact L | nia]. Qed.

(** the longest runs of layers that do not vary with a derivative are stacks of the plan, and exactly those are marked *)
Theorem C22_runs_marked n nd flags t : plan_is n nd flags t ->
  (forall j a b, j < nd -> longest_run n flags j a b -> exists k x, nth_error t k = Some x /\ i1 x = a /\ i2 x = b /\ needed x = true) /\
  (forall k x, nth_error t k = Some x -> needed x = true -> exists j, j < nd /\ longest_run n flags j (i1 x) (i2 x)).
Proof.
  intros P. pose proof (plan_facts _ _ _ _ P) as K. split.
  - intros j a b Hj R. destruct (k_runs _ _ _ _ K j a b Hj R) as (k & x & E & <- & <-). exists k, x. split; [exact E|]. split; [reflexivity|]. split; [reflexivity|]. apply (k_need _ _ _ _ K k x E). now exists j.
  - intros k x E N. exact (proj1 (k_need _ _ _ _ K k x E) N).
Qed.

(** nothing is joined in vain: a joined stack lies in a run of some derivative and is a longest run or part of a later stack *)
Theorem C22_nothing_in_vain n nd flags t k x : plan_is n nd flags t -> nth_error t k = Some x -> n <= k ->
  (exists j, j < nd /\ forall i, i1 x <= i <= i2 x -> flags i j = false) /\
  ((exists j, j < nd /\ longest_run n flags j (i1 x) (i2 x)) \/ exists k' x' a b, k < k' /\ nth_error t k' = Some x' /\ parents x' = Some (a, b) /\ (a = k \/ b = k)).
Proof.
  intros P E L. pose proof (plan_facts _ _ _ _ P) as K. split; [exact (k_inside _ _ _ _ K k x E L)|]. destruct (k_used _ _ _ _ K k x E L) as [N|C]; [left; exact (proj1 (k_need _ _ _ _ K k x E) N)|].
  right. rewrite (k_count _ _ _ _ K k x E) in C. unfold uses in C.
  assert (F : forall f : stk -> bool, 0 < length (filter f t) -> exists y, In y t /\ f y = true).
  { intros f H. destruct (filter f t) as [|y l] eqn:Q; [cbn in H; lia|]. exists y. apply filter_In. rewrite Q. now left. }
  assert (G : exists y a b, In y t /\ parents y = Some (a, b) /\ (a = k \/ b = k)).
  { destruct (Nat.eq_dec (length (filter (fun x => match parents x with Some (p, q) => Nat.eqb p k | None => false end) t)) 0) as [Z|Z].
    - rewrite Z in C. destruct (F _ C) as (y & I & H). destruct (parents y) as [[a b]|] eqn:Py; [|discriminate]. apply Nat.eqb_eq in H. exists y, a, b. auto.
    - destruct (F _ (proj1 (Nat.neq_0_lt_0 _) Z)) as (y & I & H). destruct (parents y) as [[a b]|] eqn:Py; [|discriminate]. apply Nat.eqb_eq in H. exists y, a, b. auto. }
  destruct G as (y & a & b & I & Py & H). apply In_nth_error in I. destruct I as [k' Ek']. exists k', y, a, b. split; [|auto]. destruct (le_lt_dec n k') as [L'|L'].
  - destruct (k_rest _ _ _ _ K k' y Ek' L') as (a' & b' & ya & yb & Py' & A & B & _). assert (a' = a /\ b' = b) as [-> ->] by (split; congruence). destruct H; lia.
  - destruct (k_first _ _ _ _ K k' L') as (z & Ez & _ & _ & Pz). congruence.
Qed.

Theorem C22_counts n nd flags t k x : plan_is n nd flags t -> nth_error t k = Some x -> count x = joined_from t k.
Proof. intros P. exact (k_count _ _ _ _ (plan_facts _ _ _ _ P) k x). Qed.

(** ** Cases *)
Definition sample (i j : nat) : bool := existsb (Nat.eqb i) (nth j [[2]; [0]; []] []).
Definition sample_plan : list (nat * nat * option (nat * nat) * bool * nat) :=
  match build (4 * 4) 4 3 13 sample with Some (Ok t) => map (fun x => (i1 x, i2 x, parents x, needed x, count x)) t | _ => [] end.
Example C22_case_plan : sample_plan =
  [(0, 0, None, false, 2); (1, 1, None, false, 2); (2, 2, None, false, 1); (3, 3, None, true, 1);
   (1, 2, Some (1, 2), false, 1); (1, 3, Some (4, 3), true, 1); (0, 1, Some (0, 1), true, 0); (0, 3, Some (0, 5), true, 0)].
Proof. vm_compute. reflexivity. Qed.
Example C22_case : exists t, plan_is 4 3 sample t /\ length t = 8.
Proof.
  assert (K : match build (4 * 4) 4 3 13 sample with Some (Ok t) => Nat.eqb (length t) 8 | _ => false end = true) by (vm_compute; reflexivity).
  destruct (build (4 * 4) 4 3 13 sample) as [[t|e|]|] eqn:E; try discriminate K. exists t. split; [exists 13; exact E | now apply Nat.eqb_eq].
Qed.
Example C22_case_run : longest_run 4 sample 1 1 3.
Proof. split; [lia|]. split; [|split; [right | left]; reflexivity]. intros i Hi. assert (i = 1 \/ i = 2 \/ i = 3) as [ -> | [ -> | -> ] ] by lia; reflexivity. Qed.
(** a table that is too small is overrun: the claim is not vacuous *)
Example C22_case_small_table : build 7 4 3 13 sample = Some UB.
Proof. vm_compute. reflexivity. Qed.

Print Assumptions C22_planning_ends.
Print Assumptions C22_single_layers_first.
Print Assumptions C22_joined_from_adjacent.
Print Assumptions C22_no_repeats.
Print Assumptions C22_fits_table.
Print Assumptions C22_runs_marked.
Print Assumptions C22_nothing_in_vain.
Print Assumptions C22_counts.
