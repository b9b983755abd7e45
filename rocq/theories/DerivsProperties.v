(** C20, C21: derivative flags and flag summaries. *)
From Coq Require Import ZArith List Bool Lia Arith SpecFloat FinFun.
From Verif Require Import Base OptionsModel Dbl HandleModel DerivsModel DerivsSpec DerivsProofs.
Import ListNotations.
Open Scope Z_scope.

(* ------------------------------------------------------------------------- *)
(** * C20                                                                     *)

(** Layer [i] (or the surface, [i] = number of layers) is flagged for derivative [j] exactly
    when some linearised input of it is non-zero, whatever the array held before. *)
Theorem C20_layers_exact : forall d first o i j, (i <= l_layers d)%nat -> (j < l_derivs d)%nat ->
  flags (v_layers (build_set d first o) i j) (acts d first i j).
Proof. intros. apply set_layers; auto. Qed.

(** The beam is flagged from the first varying layer downwards. *)
Theorem C20_beam_exact : forall d first o i j, l_solar d = true -> (i <= l_layers d)%nat -> (j < l_derivs d)%nat ->
  flags (v_beam (build_set d first o) i j) (exists k, (k <= i)%nat /\ acts d first k j).
Proof. intros. apply set_beam; auto. Qed.

Theorem C20_thermal_exact : forall d first o i j, l_thermal d = true -> (i <= l_layers d)%nat -> (j < l_derivs d)%nat ->
  flags (v_thermal (build_set d first o) i j) (acts d first i j \/ emission d i j).
Proof. intros. apply set_thermal; auto. Qed.

Theorem C20_sources_exact : forall d first o i j, (i <= l_layers d)%nat -> (j < l_derivs d)%nat ->
  flags (v_sources (build_set d first o) i j) (acts_source d first i j).
Proof. intros. apply set_sources; auto. Qed.

Theorem C20_total_exact : forall d first o j, (j < l_derivs d)%nat ->
  flags (v_total (build_set d first o) 0%nat j)
    (exists i, (i <= l_layers d)%nat /\ (acts d first i j \/ acts_source d first i j)).
Proof. intros. apply set_total; auto. Qed.

(** Adding downwards: the partner above is everything above layer [i]; upwards: the partner
    below is everything below.  Every code is one of the sixteen, never the marker 255. *)
Theorem C20_adding_codes_exact : forall d first o i j, (i <= l_layers d)%nat -> (j < l_derivs d)%nat ->
  codes (v_down (build_set d first o) i j)
    (exists k, (k < i)%nat /\ acts d first k j) (exists k, (k < i)%nat /\ acts_source d first k j)
    (acts d first i j) (acts_source d first i j) /\
  codes (v_up (build_set d first o) i j)
    (acts d first i j) (acts_source d first i j)
    (exists k, (i < k <= l_layers d)%nat /\ acts d first k j)
    (exists k, (i < k <= l_layers d)%nat /\ acts_source d first k j).
Proof. intros. split; [apply set_down|apply set_up]; auto. Qed.

(** The stack of the layers above level [i] is flagged exactly when one of them varies
    (level 0: the top layer itself). *)
Theorem C20_stacks_exact : forall d first o i j, (i <= l_layers d)%nat -> (j < l_derivs d)%nat ->
  (v_stacks (build_set d first o) i j <> 0 <-> exists k, (k < i \/ i = 0 /\ k = 0)%nat /\ acts d first k j).
Proof. intros. apply set_stacks; auto. Qed.

(** Nothing outside the arrays is written. *)
Theorem C20_stays_in_bounds : forall d first o i j, (l_layers d < i)%nat \/ (l_derivs d <= j)%nat ->
  let v := build_set d first o in
  v_layers v i j = v_layers o i j /\ v_stacks v i j = v_stacks o i j /\ v_beam v i j = v_beam o i j /\
  v_thermal v i j = v_thermal o i j /\ v_sources v i j = v_sources o i j /\
  v_down v i j = v_down o i j /\ v_up v i j = v_up o i j /\ v_total v i j = v_total o i j.
Proof. intros. apply set_frame; auto. Qed.

(** Reverse mode: the union over the derivatives of the first set, and of the adding codes of
    both sets, is exact. *)
Section Unions.
Variables (d : lin) (o om : derivs) (u : unions).
Let v := build_set d true o.
Let vm := build_set d false om.
Let w := build_unions d v vm u.
Hypothesis Rev : l_reverse d = true.

Lemma union_flag : forall (f : table) m n b (P : nat -> nat -> Prop) i, (i < m)%nat ->
  (forall j, (j < n)%nat -> flags (f i j) (P i j)) ->
  flags (union_logical_or2 m n (fst (fill_meta2 f m n)) b i) (exists j, (j < n)%nat /\ P i j).
Proof.
  intros f m n b P i I H. rewrite union_logical_eq. replace (i <? m)%nat with true by (symmetry; now apply Nat.ltb_lt).
  replace (Z.b2z (below n (fun j => tr (f i j)))) with (if below n (fun j => tr (f i j)) then 1 else 0) by (destruct (below n _); reflexivity).
  apply flags_if. rewrite below_iff. split; intros (j & J & K); exists j; (split; [auto|]);
  apply (flags_tr _ _ (H j J)); auto.
Qed.
Lemma union_code : forall (f : table) m n b i p, (i < m)%nat ->
  (Z.testbit (union_bitwise_or2 m n f b i) p = true <-> exists j, (j < n)%nat /\ Z.testbit (f i j) p = true).
Proof.
  intros f m n b i p I. rewrite union_bitwise_eq. replace (i <? m)%nat with true by (symmetry; now apply Nat.ltb_lt).
  rewrite union_bit. apply below_iff.
Qed.

Lemma unions_first : forall i, (i <= l_layers d)%nat ->
  flags (u_layers w i) (exists j, (j < l_derivs d)%nat /\ acts d true i j) /\
  flags (u_sources w i) (exists j, (j < l_derivs d)%nat /\ acts_source d true i j) /\
  (l_solar d = true -> flags (u_beam w i) (exists j, (j < l_derivs d)%nat /\ exists k, (k <= i)%nat /\ acts d true k j)) /\
  (l_thermal d = true -> flags (u_thermal w i) (exists j, (j < l_derivs d)%nat /\ (acts d true i j \/ emission d i j))).
Proof.
  intros i I. unfold w, build_unions. rewrite Rev. cbn [negb u_layers u_sources u_beam u_thermal].
  refine (conj _ (conj _ (conj _ _))).
  - apply (union_flag _ _ _ _ (fun i j => acts d true i j)); [lia|]. intros. apply C20_layers_exact; auto.
  - apply (union_flag _ _ _ _ (fun i j => acts_source d true i j)); [lia|]. intros. apply C20_sources_exact; auto.
  - intros So. rewrite So. apply (union_flag _ _ _ _ (fun i j => exists k, (k <= i)%nat /\ acts d true k j)); [lia|].
    intros. apply C20_beam_exact; auto.
  - intros Th. rewrite Th. apply (union_flag _ _ _ _ (fun i j => acts d true i j \/ emission d i j)); [lia|].
    intros. apply C20_thermal_exact; auto.
Qed.
Lemma unions_codes : forall i p, (i <= l_layers d)%nat ->
  (Z.testbit (u_down w i) p = true <-> exists j, (j < l_derivs d)%nat /\ Z.testbit (v_down v i j) p = true) /\
  (Z.testbit (u_up w i) p = true <-> exists j, (j < l_derivs d)%nat /\ Z.testbit (v_up v i j) p = true) /\
  (Z.testbit (um_down w i) p = true <-> exists j, (j < l_derivs d)%nat /\ Z.testbit (v_down vm i j) p = true) /\
  (Z.testbit (um_up w i) p = true <-> exists j, (j < l_derivs d)%nat /\ Z.testbit (v_up vm i j) p = true).
Proof.
  intros i p I. unfold w, build_unions. rewrite Rev. cbn [negb u_up u_down um_up um_down].
  refine (conj _ (conj _ (conj _ _))); apply union_code; lia.
Qed.
End Unions.

Theorem C20_unions_exact : forall d o om u i, l_reverse d = true -> (i <= l_layers d)%nat ->
  let w := build_unions d (build_set d true o) (build_set d false om) u in
  flags (u_layers w i) (exists j, (j < l_derivs d)%nat /\ acts d true i j) /\
  flags (u_sources w i) (exists j, (j < l_derivs d)%nat /\ acts_source d true i j) /\
  (l_solar d = true -> flags (u_beam w i) (exists j, (j < l_derivs d)%nat /\ exists k, (k <= i)%nat /\ acts d true k j)) /\
  (l_thermal d = true -> flags (u_thermal w i) (exists j, (j < l_derivs d)%nat /\ (acts d true i j \/ emission d i j))).
Proof. intros. apply unions_first; auto. Qed.
(** The union codes have a bit exactly where some derivative has it, in both sets: with
    C20_adding_codes_exact, what varies for some derivative. *)
Theorem C20_union_codes_exact : forall d o om u i, l_reverse d = true -> (i <= l_layers d)%nat ->
  let w := build_unions d (build_set d true o) (build_set d false om) u in
  let some (P : nat -> Prop) := exists j, (j < l_derivs d)%nat /\ P j in
  (Z.testbit (u_down w i) 1 = true <-> some (acts d true i)) /\
  (Z.testbit (u_down w i) 3 = true <-> some (fun j => exists k, (k < i)%nat /\ acts d true k j)) /\
  (Z.testbit (u_up w i) 3 = true <-> some (acts d true i)) /\
  (Z.testbit (um_down w i) 1 = true <-> some (acts d false i)) /\
  (Z.testbit (um_down w i) 3 = true <-> some (fun j => exists k, (k < i)%nat /\ acts d false k j)) /\
  (Z.testbit (um_up w i) 3 = true <-> some (acts d false i)).
Proof.
  intros d o om u i Rev I w some.
  assert (forall (P Q : nat -> Prop), (forall j, (j < l_derivs d)%nat -> (P j <-> Q j)) -> (some P <-> some Q)) as E.
  { intros P Q H. unfold some. split; intros (j & J & K); exists j; (split; [auto|]); apply H; auto. }
  assert (U := fun p => unions_codes d o om u Rev i p I). cbv zeta in U. fold w in U.
  refine (conj _ (conj _ (conj _ (conj _ (conj _ _))))).
  - destruct (U 1) as (-> & _). apply E. intros j J. apply (proj1 (C20_adding_codes_exact d true o i j I J)).
  - destruct (U 3) as (-> & _). apply E. intros j J. apply (proj1 (C20_adding_codes_exact d true o i j I J)).
  - destruct (U 3) as (_ & -> & _). apply E. intros j J. apply (proj2 (C20_adding_codes_exact d true o i j I J)).
  - destruct (U 1) as (_ & _ & -> & _). apply E. intros j J. apply (proj1 (C20_adding_codes_exact d false om i j I J)).
  - destruct (U 3) as (_ & _ & -> & _). apply E. intros j J. apply (proj1 (C20_adding_codes_exact d false om i j I J)).
  - destruct (U 3) as (_ & _ & _ & ->). apply E. intros j J. apply (proj2 (C20_adding_codes_exact d false om i j I J)).
Qed.

(** Merging the flags of a layer with those of the stack above it. *)
Theorem C20_merge_defined : forall n s1 sm s i, (i < n)%nat -> (s1 i <> 0 -> sm i <> 0) ->
  codes (derivs_merge_s n s1 sm s i) False (s1 i <> 0) False (sm i <> 0).
Proof.
  intros n s1 sm s i L H.
  assert (forall m, derivs_merge_s m s1 sm s i =
    if (i <? m)%nat then if tr (s1 i) then if tr (sm i) then 5 else s i else if tr (sm i) then 1 else 0 else s i) as E.
  { induction m as [|m IH]; [reflexivity|]. unfold derivs_merge_s in *. cbn [loop].
    destruct (Nat.eq_dec i m) as [->|N].
    - rewrite Nat.ltb_irrefl in IH. replace (m <? S m)%nat with true by (symmetry; apply Nat.ltb_lt; lia).
      destruct (tr (s1 m)), (tr (sm m)); cbn [negb andb]; unfold upd1; rewrite ?Nat.eqb_refl; auto.
    - assert ((i <? S m) = (i <? m))%nat as ->.
      { destruct (i <? m)%nat eqn:F; [apply Nat.ltb_lt in F; apply Nat.ltb_lt; lia|apply Nat.ltb_ge in F; apply Nat.ltb_ge; lia]. }
      rewrite <- IH. apply Nat.eqb_neq in N.
      destruct (tr (s1 m)), (tr (sm m)); cbn [negb andb]; unfold upd1; rewrite ?N; reflexivity. }
  rewrite E. replace (i <? n)%nat with true by (symmetry; now apply Nat.ltb_lt).
  unfold tr. destruct (Z.eqb_spec (s1 i) 0), (Z.eqb_spec (sm i) 0); cbn [negb]; try (exfalso; tauto);
  (refine (conj _ (conj _ (conj _ (conj _ _)))); [lia|cbn; intuition discriminate..]).
Qed.

(* ---- a concrete case: two layers and a Lambertian surface, two derivatives ---- *)
Definition half : dbl := S754_finite false 4503599627370496 (-53).
Definition ex_lin : lin := {|
  l_layers := 2; l_derivs := 2; l_elem := 1; l_solar := true; l_thermal := true; l_reverse := true;
  l_ncoef := fun _ => 3%nat; l_kernels := [0];
  ltau_l := fun i j => if (i =? 0)%nat && (j =? 0)%nat then half else d_zero; omega_l := fun _ _ => d_zero;
  coef_l := fun _ _ _ _ => d_zero; amp_l := fun _ j => if (j =? 1)%nat then half else d_zero; par_l := fun _ _ _ => d_zero;
  levels_b_l := fun _ _ => d_zero; surface_b_l := fun _ => d_zero |}.
Definition garbage : table := fun _ _ => 77.
Definition garbage_set : derivs := {| v_layers := garbage; v_stacks := garbage; v_beam := garbage; v_thermal := garbage;
  v_sources := garbage; v_total := garbage; v_down := garbage; v_up := garbage |}.
Definition no_unions : unions := {| u_layers := fun _ => 77; u_stacks := fun _ => 77; u_sources := fun _ => 77; u_beam := fun _ => 77;
  u_thermal := fun _ => 77; u_up := fun _ => 77; u_down := fun _ => 77; um_layers := fun _ => 77; um_stacks := fun _ => 77;
  um_sources := fun _ => 77; um_beam := fun _ => 77; um_thermal := fun _ => 77; um_up := fun _ => 77; um_down := fun _ => 77 |}.
Example C20_case :
  let v := build_set ex_lin true garbage_set in
  let show (t : table) := map (fun i => map (t i) [0; 1]%nat) [0; 1; 2]%nat in
  acts ex_lin true 0 0 /\ acts ex_lin true 2 1 /\ ~ acts ex_lin false 2 1 /\
  show (v_layers v) = [[1; 0]; [0; 0]; [0; 1]] /\ show (v_beam v) = [[1; 0]; [1; 0]; [1; 1]] /\
  show (v_thermal v) = [[1; 0]; [0; 0]; [0; 1]] /\
  show (v_down v) = [[3; 0]; [13; 0]; [13; 3]] /\ show (v_up v) = [[13; 3]; [5; 3]; [4; 12]].
Proof.
  assert (moves half) as M by reflexivity.
  refine (conj _ (conj _ (conj _ (conj _ (conj _ (conj _ (conj _ _))))))); try (vm_compute; reflexivity).
  - left. split; [cbn; lia|]. left. exact M.
  - right. split; [reflexivity|]. split; [left; reflexivity|]. exists 0%nat, 0. split; [reflexivity|left; exact M].
  - intros [[K _]|(_ & [K|(t & [<-|[]] & K)] & _)]; [cbn in K; lia|discriminate..].
Qed.

(** The unions of the second set are wrong: they repeat the first set, and the second beam
    union is never stored (it keeps whatever was there). *)
Theorem C20_second_unions_refuted : exists d o om u i, l_reverse d = true /\ l_solar d = true /\ (i <= l_layers d)%nat /\
  let w := build_unions d (build_set d true o) (build_set d false om) u in
  (um_layers w i = 1 /\ ~ exists j, (j < l_derivs d)%nat /\ acts d false i j) /\
  um_beam w i = 77.
Proof.
  exists ex_lin, garbage_set, garbage_set, no_unions, 2%nat.
  refine (conj eq_refl (conj eq_refl (conj _ _))); [cbn; lia|]. cbv zeta. split; [|vm_compute; reflexivity].
  split; [vm_compute; reflexivity|]. intros (j & _ & [[K _]|(_ & [K|(t & [<-|[]] & K)] & _)]); [cbn in K; lia|discriminate..].
Qed.
(* ------------------------------------------------------------------------- *)
(** * C21                                                                     *)

(** The set positions of a row. *)
Definition set_in (f : row) (n : nat) (l : list nat) : Prop :=
  NoDup l /\ forall i, In i l <-> (i < n)%nat /\ f i <> 0.
Theorem C21_row_summary : forall f n l, set_in f n l ->
  flags_count (fill_meta f n) n = Z.of_nat (length l) /\
  flags (flags_or (fill_meta f n) n) (exists i, (i < n)%nat /\ f i <> 0).
Proof.
  intros f n l [ND IN]. split.
  - rewrite flags_count_fill. unfold count_true. f_equal. apply Nat.le_antisymm.
    + apply NoDup_incl_length; [apply NoDup_filter, seq_NoDup|]. intros i I. apply filter_In in I as [A B]. apply IN.
      apply in_seq in A. unfold tr in B. apply negb_true_iff, Z.eqb_neq in B. split; [lia|auto].
    + apply NoDup_incl_length; auto. intros i I. apply IN in I as [A B]. apply filter_In. split; [apply in_seq; lia|].
      unfold tr. apply negb_true_iff, Z.eqb_neq. auto.
  - rewrite flags_or_fill. replace (Z.b2z _) with (if below n (fun i => tr (f i)) then 1 else 0) by (destruct (below n _); reflexivity).
    apply flags_if. rewrite below_iff. unfold tr. split; intros (i & A & B); exists i; (split; [auto|]);
    [apply negb_true_iff, Z.eqb_neq in B|apply negb_true_iff, Z.eqb_neq]; auto.
Qed.
(** A table: the count is the sum of the counts of the rows, in any list of set cells. *)
Definition set_in2 (f : table) (m n : nat) (l : list (nat * nat)) : Prop :=
  NoDup l /\ forall i j, In (i, j) l <-> (i < m)%nat /\ (j < n)%nat /\ f i j <> 0.
Definition cells (f : table) (m n : nat) : list (nat * nat) :=
  flat_map (fun i => map (pair i) (filter (fun j => tr (f i j)) (seq 0 n))) (seq 0 m).
Lemma cells_in : forall f m n i j, In (i, j) (cells f m n) <-> (i < m)%nat /\ (j < n)%nat /\ f i j <> 0.
Proof.
  intros. unfold cells. rewrite in_flat_map. split.
  - intros (k & A & B). apply in_map_iff in B as (x & E & B). injection E as -> ->. apply filter_In in B as [B C].
    apply in_seq in A, B. unfold tr in C. apply negb_true_iff, Z.eqb_neq in C. repeat split; auto; lia.
  - intros (A & B & C). exists i. split; [apply in_seq; lia|]. apply in_map_iff. exists j. split; [auto|].
    apply filter_In. split; [apply in_seq; lia|]. unfold tr. now apply negb_true_iff, Z.eqb_neq.
Qed.
Lemma nodup_app : forall A (a b : list A), NoDup a -> NoDup b -> (forall x, In x a -> ~ In x b) -> NoDup (a ++ b).
Proof.
  induction a as [|x a IH]; intros b Na Nb H; [exact Nb|]. inversion_clear Na. cbn. constructor.
  - rewrite in_app_iff. intros [K|K]; [auto|]. apply (H x); [left; auto|auto].
  - apply IH; auto. intros y Y. apply H. right. auto.
Qed.
Lemma cells_nodup : forall f m n, NoDup (cells f m n).
Proof.
  intros. unfold cells. assert (N := seq_NoDup m 0). induction N as [|i l H N IH]; [constructor|].
  cbn [flat_map]. apply nodup_app; auto.
  - apply FinFun.Injective_map_NoDup; [intros x y E; now injection E|apply NoDup_filter, seq_NoDup].
  - intros [p q] A B. apply in_map_iff in A as (x & E & _). injection E as -> _.
    apply in_flat_map in B as (k & K & B). apply in_map_iff in B as (y & E & _). injection E as -> _. contradiction.
Qed.
Lemma cells_count : forall f m n, count_true2 f m n = Z.of_nat (length (cells f m n)).
Proof.
  intros. unfold count_true2, cells. induction (seq 0 m) as [|i l IH]; [reflexivity|]. cbn [map fold_right flat_map].
  rewrite IH, app_length, map_length, Nat2Z.inj_add. reflexivity.
Qed.
Theorem C21_table_summary : forall f m n l, set_in2 f m n l ->
  flags_count2 (snd (fill_meta2 f m n)) m n = Z.of_nat (length l) /\
  flags (flags_or2 (snd (fill_meta2 f m n)) m n) (exists i j, (i < m)%nat /\ (j < n)%nat /\ f i j <> 0) /\
  forall i, (i < m)%nat -> fst (fill_meta2 f m n) i = fill_meta (f i) n.
Proof.
  intros f m n l [ND IN].
  assert (Z.of_nat (length l) = count_true2 f m n) as C.
  { rewrite cells_count. f_equal. apply Nat.le_antisymm; apply NoDup_incl_length; auto using cells_nodup; intros [i j] H;
    [apply cells_in, IN; auto|apply IN, cells_in; auto]. }
  refine (conj _ (conj _ _)); [| |reflexivity].
  - rewrite C. unfold flags_count2. rewrite fill_meta2_eq. cbn [m_count]. destruct (empty2 m n) eqn:E; [|reflexivity].
    rewrite <- C. destruct l as [|[i j] l]; [reflexivity|]. exfalso. destruct (proj1 (IN i j) (or_introl eq_refl)) as (A & B & _).
    destruct m, n; cbn in E; try lia; discriminate.
  - unfold flags_or2. rewrite fill_meta2_eq. cbn [m_or]. destruct (empty2 m n) eqn:E.
    + right. split; [reflexivity|]. intros (i & j & A & B & _). destruct m, n; cbn in E; try lia; discriminate.
    + replace (Z.b2z _) with (if below m (fun i => below n (fun j => tr (f i j))) then 1 else 0) by (destruct (below m _); reflexivity).
      apply flags_if. rewrite below_iff. split.
      * intros (i & A & B). apply below_iff in B as (j & B & K). exists i, j. unfold tr in K. apply negb_true_iff, Z.eqb_neq in K. auto.
      * intros (i & j & A & B & K). exists i. split; [auto|]. apply below_iff. exists j. split; [auto|].
        unfold tr. now apply negb_true_iff, Z.eqb_neq.
Qed.
(** The conjunction is reported false for every array, so it is wrong for the non-empty
    all-set ones and only for those. *)
Theorem C21_conjunction_always_false_refuted :
  (forall f n, flags_and (fill_meta f n) n = 0) /\ (forall f m n, flags_and2 (snd (fill_meta2 f m n)) m n = 0) /\
  exists f n, (0 < n)%nat /\ (forall i, (i < n)%nat -> f i = 1) /\ flags_and (fill_meta f n) n = 0.
Proof.
  refine (conj _ (conj _ _)).
  - intros f n. rewrite fill_meta_eq. destruct n; reflexivity.
  - intros f m n. unfold flags_and2. rewrite fill_meta2_eq. cbn [m_and]. now destruct (empty2 m n).
  - exists (fun _ => 1), 3%nat. split; [lia|]. split; [reflexivity|vm_compute; reflexivity].
Qed.
(** Copying and initialising reach every cell of the array and no other. *)
Theorem C21_copy_exact : forall b a m n x i j,
  flags_copy2 b a m n i j = (if (i <? m)%nat && (j <? n)%nat then a i j else b i j) /\
  flags_init2 b m n x i j = (if (i <? m)%nat && (j <? n)%nat then x else b i j).
Proof.
  intros. split.
  - unfold flags_copy2. apply (rows_ _ (fun j => (j <? n)%nat) (fun i j => a i j)). intros. apply set_row.
  - unfold flags_init2. apply (rows_ _ (fun j => (j <? n)%nat) (fun i j => x)). intros. apply (set_row n i0 (fun _ => x)).
Qed.
Example C21_case : set_in (fun i => if (i =? 1)%nat then 0 else 4) 4 [0; 2; 3]%nat /\
  set_in2 (fun i j => if (i =? j)%nat then 5 else 0) 2 3 [(0, 0); (1, 1)]%nat.
Proof.
  split; split.
  - repeat constructor; cbn; intuition lia.
  - intros i. cbn. destruct (Nat.eqb_spec i 1); intuition (try lia).
  - repeat constructor; cbn; intuition discriminate.
  - intros i j. cbn. split.
    + intros [E|[E|[]]]; injection E as <- <-; cbn; repeat split; lia.
    + intros (A & B & C). destruct (Nat.eqb_spec i j); [subst i|congruence].
      destruct j as [|[|j]]; [left; reflexivity|right; left; reflexivity|lia].
Qed.

Print Assumptions C20_layers_exact.
Print Assumptions C20_beam_exact.
Print Assumptions C20_thermal_exact.
Print Assumptions C20_sources_exact.
Print Assumptions C20_total_exact.
Print Assumptions C20_adding_codes_exact.
Print Assumptions C20_stacks_exact.
Print Assumptions C20_stays_in_bounds.
Print Assumptions C20_unions_exact.
Print Assumptions C20_union_codes_exact.
Print Assumptions C20_merge_defined.
Print Assumptions C20_second_unions_refuted.
Print Assumptions C21_row_summary.
Print Assumptions C21_table_summary.
Print Assumptions C21_conjunction_always_false_refuted.
Print Assumptions C21_copy_exact.
