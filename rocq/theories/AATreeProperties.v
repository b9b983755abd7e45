(** Property C33: the balanced tree after any sequence of insertions. *)
From Coq Require Import ZArith List Bool Sorted Permutation Lia.
From Verif Require Import AATreeModel AATreeSpec AATreeProofs.
Import ListNotations.
Open Scope Z_scope.

(** Every history of insertions is carried out without touching the sentinel, and walking the
    tree lists the kept values in ascending order. *)
Theorem C33_sorted_and_complete : forall V comp, orders comp -> forall vs : list V,
  exists t fs, build comp vs = Some (t, fs) /\ ascending comp (in_order t) /\ Permutation (in_order t) (kept comp vs).
Proof. intros V comp O vs. destruct (build_inv V comp O vs) as (t & fs & E & _ & S & P). eauto. Qed.
Print Assumptions C33_sorted_and_complete.

(** Find returns the kept value comparing equal, or nothing when there is none; insert reports a
    new value exactly when find would not have found it. *)
Theorem C33_find_exact : forall V comp, orders comp -> forall (vs : list V) t fs v, build comp vs = Some (t, fs) ->
  match find_ comp t v with
  | Some w => In w (kept comp vs) /\ comp v w = 0
  | None => forall w, In w (kept comp vs) -> comp v w <> 0
  end.
Proof.
  intros V comp O vs t fs v E. destruct (build_inv V comp O vs) as (t' & fs' & E' & _ & S & P). rewrite E in E'. injection E' as <- <-.
  rewrite (find_in V comp O t v S). destruct (List.find _ (in_order t)) as [w|] eqn:F.
  - apply find_some in F as [I Q]. split; [now apply (Permutation_in _ P)|now apply Z.eqb_eq].
  - intros w I Q. pose proof (find_none _ _ F w (Permutation_in _ (Permutation_sym P) I)) as N. cbn in N. apply Z.eqb_neq in N. contradiction.
Qed.
Print Assumptions C33_find_exact.
Theorem C33_insert_reports_new : forall V comp, orders comp -> forall (vs : list V) t fs v, build comp vs = Some (t, fs) ->
  exists t' f, insert_ comp t v = Some (t', f) /\ (f = true <-> find_ comp t v = None) /\
    (f = false -> in_order t' = in_order t) /\ (f = true -> find_ comp t' v = Some v) /\
    (forall w, find_ comp t w <> None -> find_ comp t' w = find_ comp t w).
Proof.
  intros V comp O vs t fs v E. destruct (build_inv V comp O vs) as (t0 & fs0 & E' & B & S & P). rewrite E in E'. injection E' as <- <-.
  destruct (insert_bal V comp t v B) as (t' & f & I & B' & _). exists t', f. split; [exact I|].
  destruct (insert_in V comp O t v t' f S I) as (S' & F & C). rewrite !(find_in V comp O) by auto.
  assert (FN : forall (l : list V) u, List.find (fun w => comp u w =? 0) l = None <-> existsb (fun w => comp u w =? 0) l = false).
  { intros l u. induction l as [|y l IH]; cbn; [tauto|]. destruct (comp u y =? 0); cbn; [split; discriminate|exact IH]. }
  assert (UN : forall u w, In w (in_order t') -> comp u w = 0 -> List.find (fun w => comp u w =? 0) (in_order t') = Some w).
  { clear - S' O. induction (in_order t') as [|y l IH]; [intros u w []|]. intros u w [<-|I] Q; cbn.
    - rewrite Q. reflexivity.
    - inversion S' as [|? ? S1 F1]; subst. rewrite Forall_forall in F1. pose proof (ord_eq_r _ O y w u (F1 w I) (comp_sym V comp O u w Q)).
      pose proof (ord_swap _ O y u). destruct (Z.eqb_spec (comp u y) 0); [lia|]. now apply IH. }
  split; [|split; [|split]].
  - rewrite FN, F. destruct (existsb _ _); cbn; intuition congruence.
  - intros ->. exact C.
  - intros ->. apply UN; [apply (Permutation_in _ (Permutation_sym C)); now left|apply (comp_refl V comp O)].
  - intros w N. rewrite !(find_in V comp O) in * by auto. destruct (List.find (fun w0 => comp w w0 =? 0) (in_order t)) as [u|] eqn:Q; [|congruence].
    apply find_some in Q as [Iu Qu]. apply Z.eqb_eq in Qu. apply UN; [|exact Qu]. destruct f; [apply (Permutation_in _ (Permutation_sym C)); now right|now rewrite C].
Qed.
Print Assumptions C33_insert_reports_new.

(** The tree is balanced: a search among n values makes at most 2 log2 (n + 1) comparisons. *)
Theorem C33_balanced : forall V comp, orders comp -> forall (vs : list V) t fs, build comp vs = Some (t, fs) ->
  balanced t /\ Z.of_nat (depth t) <= 2 * Z.log2 (Z.of_nat (length (kept comp vs)) + 1).
Proof.
  intros V comp O vs t fs E. destruct (build_inv V comp O vs) as (t' & fs' & E' & B & S & P). rewrite E in E'. injection E' as <- <-.
  split; [exact B|]. destruct (bal_depth V t B) as [D _]. pose proof (bal_count V t B) as C. rewrite count_in in C.
  rewrite <- (Permutation_length P). pose proof (bal_level V t B). 
  assert (level t <= Z.log2 (Z.of_nat (length (in_order t)) + 1)); [|lia].
  apply Z.log2_le_pow2; [|lia]. lia.
Qed.
Print Assumptions C33_balanced.

(** Count, minimum and maximum. *)
Theorem C33_count_min_max : forall V comp, orders comp -> forall (vs : list V) t fs, build comp vs = Some (t, fs) ->
  count t = Z.of_nat (length (kept comp vs)) /\
  (match find_min t with Some m => In m (kept comp vs) /\ (forall w, In w (kept comp vs) -> comp m w <= 0) | None => kept comp vs = [] end) /\
  (match find_max t with Some m => In m (kept comp vs) /\ (forall w, In w (kept comp vs) -> comp m w >= 0) | None => kept comp vs = [] end).
Proof.
  intros V comp O vs t fs E. destruct (build_inv V comp O vs) as (t' & fs' & E' & B & S & P). rewrite E in E'. injection E' as <- <-.
  rewrite count_in, min_in, max_in. split; [now rewrite (Permutation_length P)|].
  assert (IN : forall w, In w (kept comp vs) <-> In w (in_order t)) by (intro w; split; [apply (Permutation_in _ (Permutation_sym P))|apply (Permutation_in _ P)]).
  split.
  - destruct (in_order t) as [|m l] eqn:Q; cbn; [destruct (kept comp vs) as [|z l]; [reflexivity|destruct (proj1 (IN z)); now left]|].
    split; [apply IN; now left|]. intros w [<-|I]%IN; [rewrite (comp_refl V comp O); lia|]. inversion S as [|? ? _ F]; subst. rewrite Forall_forall in F. specialize (F w I). lia.
  - destruct (rev (in_order t)) as [|m l] eqn:Q; cbn.
    + destruct (kept comp vs) as [|z l]; [reflexivity|]. pose proof (proj1 (IN z) (or_introl eq_refl)) as I. apply in_rev in I. rewrite Q in I. destruct I.
    + assert (E' : in_order t = rev l ++ [m]) by (rewrite <- (rev_involutive (in_order t)), Q; reflexivity).
      rewrite E' in S, IN. apply (asc_app V comp O) in S as (_ & _ & L & _). split; [apply IN, in_or_app; right; now left|].
      intros w [I|[<-|[]]]%IN%in_app_or; [pose proof (ord_swap _ O w m); specialize (L w I); lia|rewrite (comp_refl V comp O); lia].
Qed.
Print Assumptions C33_count_min_max.

(** Concrete case: integer keys with data. *)
Definition zcomp (a b : Z * bool) : Z := if fst a <? fst b then -1 else if fst b <? fst a then 1 else 0.
Lemma zcomp_orders : orders zcomp.
Proof. unfold zcomp. split; intros; repeat match goal with |- context [?x <? ?y] => destruct (Z.ltb_spec x y) | H : context [?x <? ?y] |- _ => destruct (Z.ltb_spec x y) end; lia. Qed.
Definition keys : list (Z * bool) := map (fun k => (k, true)) [9; 8; 7; 5; 6; 4; 1; 2] ++ [(3, false); (2, false)].
Example C33_case : match build zcomp keys with
  | Some (t, fs) => map fst (in_order t) = [1; 2; 3; 4; 5; 6; 7; 8; 9] /\ fs = [true; true; true; true; true; true; true; false; true; true] /\
      find_ zcomp t (2, true) = Some (2, false) /\ depth t = 4%nat /\ find_max t = Some (9, true)
  | None => False end.
Proof. vm_compute. repeat split. Qed.
