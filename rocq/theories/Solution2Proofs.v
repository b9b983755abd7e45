From Coq Require Import List Bool Arith Lia Reals.
From Verif Require Import DerivsModel Solution2Model Solution2Spec.
Import ListNotations.
Open Scope nat_scope.

Lemma divmod : forall n q r, r < n -> (q * n + r) / n = q /\ (q * n + r) mod n = r.
Proof.
  intros n q r H. split; [symmetry; apply (Nat.div_unique _ _ q r); [auto|lia]|symmetry; apply (Nat.mod_unique _ _ q r); [auto|lia]].
Qed.
Section Dims.
Variable g : s2cfg.
Notation M := (s_mus g). Notation P := (s_phis g). Notation S := (s_stokes g).
Definition encode4 (x : nat * nat * nat * nat) : nat := let '(a, b, c, e) := x in a * (M * P * S) + (b * (P * S) + (c * S + e)).
Notation in4 := (in4 g).
Lemma encode_bound : forall x, in4 x -> encode4 x < s_levels g * M * P * S.
Proof.
  intros [[[a b] c] e] (A & B & C & E). unfold encode4.
  assert (c * S + e < P * S) by nia. assert (b * (P * S) + (c * S + e) < M * (P * S)) by nia.
  assert (a * (M * P * S) + (b * (P * S) + (c * S + e)) < s_levels g * (M * P * S)) by nia.
  assert (s_levels g * (M * P * S) = s_levels g * M * P * S) by ring. lia.
Qed.
Lemma decode_encode : forall x, in4 x -> decode4 g (encode4 x) = x.
Proof.
  intros [[[a b] c] e] (A & B & C & E). unfold decode4, encode4. cbv zeta.
  assert (c * S + e < P * S) as L1 by nia. assert (b * (P * S) + (c * S + e) < M * P * S) as L2 by nia.
  destruct (divmod _ a _ L2) as [-> ->]. destruct (divmod _ b _ L1) as [-> ->]. destruct (divmod _ c _ E) as [-> ->]. reflexivity.
Qed.
Lemma decode_in : forall i, i < s_levels g * M * P * S -> in4 (decode4 g i).
Proof.
  intros i L. unfold decode4, in4. cbv zeta.
  assert (0 < M * P * S) as D by nia. assert (0 < P * S) as D2 by nia. assert (0 < S) as D3 by nia.
  repeat split.
  - apply Nat.div_lt_upper_bound; nia.
  - apply Nat.div_lt_upper_bound; [lia|]. assert (i mod (M * P * S) < M * P * S) by (apply Nat.mod_upper_bound; lia). nia.
  - apply Nat.div_lt_upper_bound; [lia|]. assert (i mod (M * P * S) mod (P * S) < P * S) by (apply Nat.mod_upper_bound; lia). nia.
  - apply Nat.mod_upper_bound; lia.
Qed.
Lemma encode_decode : forall i, i < s_levels g * M * P * S -> encode4 (decode4 g i) = i.
Proof.
  intros i L. unfold decode4, encode4. cbv zeta.
  assert (0 < M * P * S) as D by nia. assert (0 < P * S) as D2 by nia. assert (0 < S) as D3 by nia.
  assert (E1 := Nat.div_mod i (M * P * S) ltac:(lia)).
  assert (E2 := Nat.div_mod (i mod (M * P * S)) (P * S) ltac:(lia)).
  assert (E3 := Nat.div_mod (i mod (M * P * S) mod (P * S)) S ltac:(lia)). nia.
Qed.

Notation requested := (requested g).
Definition block (d : bool) : nat := if d && s_up g then s_levels g * M * P * S else 0.
Lemma decode_some : forall i, i < n_inputs g -> exists o, decode g i = Some o /\ requested o /\ i = block (fst o) + encode4 (snd o).
Proof.
  intros i L. unfold n_inputs in L. unfold decode. cbv zeta. set (N := s_levels g * M * P * S) in *.
  assert (length (directions g) * s_levels g * M * P * S = length (directions g) * N) as E by (unfold N; lia). rewrite E in L. clear E.
  unfold directions, requested, block in *.
  destruct (s_up g) eqn:U, (s_down g) eqn:D; cbn [andb length nth_error option_map fst snd] in *; destruct (Nat.ltb_spec i N); try lia;
    (eexists; split; [reflexivity|]; cbn [fst snd andb]; split; [split; [auto|apply decode_in; unfold N in *; lia]|rewrite encode_decode; unfold N in *; lia]).
Qed.
Lemma decode_all : forall o, requested o -> block (fst o) + encode4 (snd o) < n_inputs g /\ decode g (block (fst o) + encode4 (snd o)) = Some o.
Proof.
  intros [d x] [Q R]. cbn [fst snd] in *. assert (B := encode_bound x R). unfold n_inputs, decode. cbv zeta.
  set (N := s_levels g * M * P * S) in *.
  assert (length (directions g) * s_levels g * M * P * S = length (directions g) * N) as -> by (unfold N; lia).
  unfold directions, block. fold N.
  destruct d; rewrite Q; destruct (s_up g) eqn:U, (s_down g) eqn:D; cbn [andb length nth_error option_map]; try discriminate Q;
    (split; [lia|]).
  - destruct (Nat.ltb_spec (N + encode4 x) N); [lia|]. replace (N + encode4 x - N) with (encode4 x) by lia. now rewrite decode_encode.
  - destruct (Nat.ltb_spec (0 + encode4 x) N); [|lia]. cbn [plus]. now rewrite decode_encode.
  - destruct (Nat.ltb_spec (0 + encode4 x) N); [|lia]. cbn [plus]. now rewrite decode_encode.
  - destruct (Nat.ltb_spec (0 + encode4 x) N); [|lia]. cbn [plus]. now rewrite decode_encode.
Qed.
Lemma out_eqb_spec : forall x y, out_eqb x y = true <-> x = y.
Proof.
  intros [d [[[a b] c] e]] [d' [[[a' b'] c'] e']]. unfold out_eqb. rewrite !andb_true_iff, !Nat.eqb_eq, Bool.eqb_true_iff.
  split; [intros [[[[-> ->] ->] ->] ->]; reflexivity|intros E; injection E; auto].
Qed.
Lemma inside_in4 : forall o, inside g o = true <-> in4 (snd o).
Proof. intros [d [[[a b] c] e]]. unfold inside, in4. cbn [snd]. rewrite !andb_true_iff, !Nat.ltb_lt. tauto. Qed.
End Dims.

Section Loop.
Variables (T : Type) (zero one : T) (add mul : T -> T -> T) (g : s2cfg) (ln : lin T) (reverse : seeds T -> option (adj T)).
Notation unit_seed := (unit_seed zero one).
Hypothesis RA : reads_arrays g reverse.
Variables (x0 : adj T) (a0 : arrays T).
Hypothesis OK : forall o, requested g o -> reverse (unit_seed o) <> None.
Definition grad (o : out) : adj T := match reverse (unit_seed o) with Some x => x | None => x0 end.
Definition start : option (seeds T * arrays T) :=
  Some (fun _ => zero, fun p k => if inside g p && (k <? s_derivs g) then zero else a0 p k).
Definition stepf := fun i (st : option (seeds T * arrays T)) => match st, decode g i with
                                 | Some st, Some o => Some (visit T zero one add mul g ln reverse x0 o st)
                                 | _, _ => None end.
Lemma loop_inv : forall n, n <= n_inputs g -> exists s a, loop n stepf start = Some (s, a) /\
  (forall p, in4 g (snd p) -> s p = zero) /\
  (forall p k, a p k = if match decode g (block g (fst p) + encode4 g (snd p)) with Some q => out_eqb p q | None => false end && (block g (fst p) + encode4 g (snd p) <? n) && (k <? s_derivs g)
                       then contract T zero add mul g ln (grad p) k
                       else if inside g p && (k <? s_derivs g) then zero else a0 p k).
Proof.
  induction n as [|n IH]; intros L.
  - eexists _, _. split; [reflexivity|]. split; [auto|]. intros p k. rewrite andb_false_r. reflexivity.
  - destruct (IH ltac:(lia)) as (s & a & E & Z & A). cbn [loop]. rewrite E. unfold stepf.
    destruct (decode_some g n ltac:(lia)) as (o & D & Q & I). rewrite D. unfold visit.
    assert (reverse (fun p => if out_eqb p o then one else s p) = Some (grad o)) as R.
    { rewrite (RA _ (unit_seed o)).
      - unfold grad. specialize (OK o Q). destruct (reverse (unit_seed o)); [reflexivity|congruence].
      - intros p Pp. unfold unit_seed. destruct (out_eqb p o); [reflexivity|]. now apply Z. }
    rewrite R. eexists _, _. split; [reflexivity|]. split.
    + intros p Pp. rewrite (proj2 (inside_in4 g p) Pp). reflexivity.
    + intros p k. rewrite A. destruct (out_eqb p o) eqn:PO.
      * apply out_eqb_spec in PO. subst p. rewrite <- I. rewrite D. replace (out_eqb o o) with true by (symmetry; now apply out_eqb_spec).
        destruct (Nat.ltb_spec n (Datatypes.S n)); [|lia]. cbn [andb]. destruct (k <? s_derivs g); [reflexivity|]. rewrite !andb_false_r. reflexivity.
      * cbn [andb]. destruct (decode g (block g (fst p) + encode4 g (snd p))) as [q|] eqn:DQ; [|reflexivity].
        destruct (out_eqb p q) eqn:PQ; [|reflexivity]. apply out_eqb_spec in PQ. subst q. cbn [andb].
        destruct (Nat.ltb_spec (block g (fst p) + encode4 g (snd p)) n), (Nat.ltb_spec (block g (fst p) + encode4 g (snd p)) (Datatypes.S n)); try reflexivity; try lia.
        exfalso. assert (block g (fst p) + encode4 g (snd p) = n) as EN by lia. rewrite EN, D in DQ. injection DQ as ->.
        rewrite (proj2 (out_eqb_spec p p) eq_refl) in PO. discriminate.
Qed.
End Loop.

(** * The loop and the chain rule over the reals *)
Lemma sum_S n f : sum (S n) f = (sum n f + f n)%R.
Proof.
  unfold sum. rewrite seq_S, map_app, fold_right_app. cbn.
  generalize (map f (seq 0 n)) as l. intro l. rewrite Rplus_0_r. induction l as [|a l IH]; cbn; [ring|]. rewrite IH. ring.
Qed.
Lemma loop_sum n f s : loop n (fun j s => (s + f j)%R) s = (s + sum n f)%R.
Proof. revert s. induction n as [|n IH]; intro s; cbn [loop]; [unfold sum; cbn; ring|]. rewrite IH, sum_S. ring. Qed.
Lemma loop_eq {A} n (f f' : nat -> A -> A) s : (forall i x, f i x = f' i x) -> loop n f s = loop n f' s.
Proof. intro E. induction n as [|n IH]; cbn [loop]; [reflexivity|]. now rewrite IH, E. Qed.
Lemma sum_plus n f f' : sum n (fun j => f j + f' j)%R = (sum n f + sum n f')%R.
Proof. induction n as [|n IH]; [unfold sum; cbn; ring|]. rewrite !sum_S, IH. ring. Qed.
Lemma contract_chain g ln x k : contract R 0%R Rplus Rmult g ln x k = chain_rule g ln x k.
Proof.
  unfold contract, chain_rule. rewrite loop_sum.
  rewrite (loop_eq _ _ (fun j s => s + (l_ltau R ln j k * a_ltau R x j + ((if l_varies R ln j k then l_omega R ln j k * a_omega R x j else 0) +
    (if l_varies R ln j k then sum (s_elem g) (fun l => sum (s_ncoef g j) (fun m => l_coef R ln j k l m * a_coef R x j l m)) else 0))))%R).
  - rewrite loop_sum, !sum_plus. ring.
  - intros j s. destruct (l_varies R ln j k); [|ring].
    rewrite (loop_eq _ _ (fun l s => s + sum (s_ncoef g j) (fun m => l_coef R ln j k l m * a_coef R x j l m))%R) by (intros; apply loop_sum).
    rewrite loop_sum. ring.
Qed.
