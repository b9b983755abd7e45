From Coq Require Import ZArith List Bool String Ascii Lia.
From Verif Require Import Base NamesModel NamesSpec.
Import ListNotations.
Open Scope Z_scope.

(** * Searching *)
Fixpoint find_index {A} (p : A -> bool) (l : list A) : option nat :=
  match l with [] => None | x :: l => if p x then Some O else option_map S (find_index p l) end.
Lemma aref_ok : forall A (l : list A) i x, nth_error l i = Some x -> aref l (Z.of_nat i) = Ok x.
Proof. intros. unfold aref. destruct (Z.ltb_spec (Z.of_nat i) 0); [lia|]. now rewrite Nat2Z.id, H. Qed.
Lemma scan_find : forall A B (p : A -> bool) (r : Z -> B) miss hit suf pre,
  (forall i x, nth_error (pre ++ suf) i = Some x -> hit (Z.of_nat i) x = Ok (if p x then Some (r (Z.of_nat i)) else None)) ->
  scan (List.length suf) (Z.of_nat (List.length pre)) (aref (pre ++ suf)) hit miss =
  Ok match find_index p suf with Some k => r (Z.of_nat (List.length pre + k)) | None => miss end.
Proof.
  intros A B p r miss hit. induction suf as [|x suf IH]; intros pre H; [reflexivity|].
  cbn [scan List.length find_index].
  assert (nth_error (pre ++ x :: suf) (List.length pre) = Some x) as E by (rewrite nth_error_app2, Nat.sub_diag by lia; reflexivity).
  rewrite (aref_ok _ _ _ _ E), (H _ _ E). destruct (p x).
  - now rewrite Nat.add_0_r.
  - replace (pre ++ x :: suf) with ((pre ++ [x]) ++ suf) in * by (rewrite <- app_assoc; reflexivity).
    replace (Z.of_nat (List.length pre) + 1) with (Z.of_nat (List.length (pre ++ [x]))) by (rewrite app_length; cbn; lia).
    rewrite IH by exact H. destruct (find_index p suf); cbn [option_map]; [|reflexivity].
    rewrite app_length. cbn [List.length]. do 2 f_equal. lia.
Qed.
Lemma scan0 : forall A B (p : A -> bool) (r : Z -> B) miss hit l n, n = List.length l ->
  (forall i x, nth_error l i = Some x -> hit (Z.of_nat i) x = Ok (if p x then Some (r (Z.of_nat i)) else None)) ->
  scan n 0 (aref l) hit miss = Ok match find_index p l with Some k => r (Z.of_nat k) | None => miss end.
Proof. intros; subst. exact (scan_find A B p r miss hit l [] H0). Qed.
Lemma find_some : forall A (p : A -> bool) l i x, NoDup l -> nth_error l i = Some x -> (forall y, p y = true <-> y = x) -> find_index p l = Some i.
Proof.
  induction l as [|y l IH]; intros i x ND E P; [destruct i; discriminate|]. inversion_clear ND as [|? ? N ND'].
  cbn. destruct i as [|i]; cbn in E.
  - injection E as ->. now rewrite (proj2 (P x) eq_refl).
  - destruct (p y) eqn:Y; [apply P in Y; subst y; exfalso; apply N; eapply nth_error_In; eauto|]. now rewrite (IH i x).
Qed.
Lemma find_none : forall A (p : A -> bool) l, (forall y, In y l -> p y = false) -> find_index p l = None.
Proof.
  induction l as [|y l IH]; intros H; [reflexivity|]. cbn. rewrite H by (left; auto). rewrite IH by (intros; apply H; right; auto). reflexivity.
Qed.
Lemma find_sound : forall A (p : A -> bool) l i, find_index p l = Some i -> exists x, nth_error l i = Some x /\ p x = true.
Proof.
  induction l as [|y l IH]; intros i E; [discriminate|]. cbn in E. destruct (p y) eqn:Y.
  - injection E as <-. exists y. auto.
  - destruct (find_index p l) as [k|]; [|discriminate]. injection E as <-. apply IH. reflexivity.
Qed.

Record wf (t : table) : Prop := {
  wf_names : Z.of_nat (List.length (t_names t)) = t_n t;
  wf_values : Z.of_nat (List.length (t_values t)) = t_n t;
  wf_nd : NoDup (t_names t);
  wf_vd : NoDup (t_values t) }.
Lemma values_at : forall t i x, wf t -> nth_error (t_names t) i = Some x -> exists v, nth_error (t_values t) i = Some v.
Proof.
  intros t i x W E. destruct (nth_error (t_values t) i) eqn:V; [eauto|]. exfalso. apply nth_error_None in V.
  assert (i < List.length (t_names t))%nat by (apply nth_error_Some; congruence). destruct W as [A B _ _]. lia.
Qed.
Lemma names_at : forall t i v, wf t -> nth_error (t_values t) i = Some v -> exists x, nth_error (t_names t) i = Some x.
Proof.
  intros t i x W E. destruct (nth_error (t_names t) i) eqn:V; [eauto|]. exfalso. apply nth_error_None in V.
  assert (i < List.length (t_values t))%nat by (apply nth_error_Some; congruence). destruct W as [A B _ _]. lia.
Qed.
Lemma n_names : forall t, wf t -> Z.to_nat (t_n t) = List.length (t_names t).
Proof. intros t W. destruct W as [A _ _ _]. lia. Qed.
Lemma n_values : forall t, wf t -> Z.to_nat (t_n t) = List.length (t_values t).
Proof. intros t W. destruct W as [_ A _ _]. lia. Qed.

Lemma name_to_index_eq : forall t s, wf t ->
  name_to_index t s = Ok match find_index (fun x => String.eqb x s) (t_names t) with Some k => Z.of_nat k | None => -1 end.
Proof. intros t s W. unfold name_to_index. apply (scan0 _ _ _ (fun z => z)); [now apply n_names|reflexivity]. Qed.
Lemma value_to_index_eq : forall t v, wf t ->
  value_to_index t v = Ok match find_index (fun x => v =? x) (t_values t) with Some k => Z.of_nat k | None => -1 end.
Proof. intros t s W. unfold value_to_index. apply (scan0 _ _ _ (fun z => z)); [now apply n_values|reflexivity]. Qed.
Lemma name_to_value_eq : forall t s, wf t ->
  name_to_value t s = Ok match find_index (fun x => String.eqb s x) (t_names t) with Some k => nth k (t_values t) 0 | None => -1 end.
Proof.
  intros t s W. unfold name_to_value. rewrite (scan0 _ _ (fun x => String.eqb s x) (fun z => nth (Z.to_nat z) (t_values t) 0)).
  - destruct (find_index _ _); [now rewrite Nat2Z.id|reflexivity].
  - now apply n_names.
  - intros i x E. destruct (String.eqb s x); [|reflexivity]. destruct (values_at t i x W E) as (v & V).
    rewrite (aref_ok _ _ _ _ V), Nat2Z.id. now rewrite (nth_error_nth _ _ _ V).
Qed.
Lemma value_to_name_eq : forall t v, wf t ->
  value_to_name t v = Ok match find_index (fun x => v =? x) (t_values t) with Some k => Some (nth k (t_names t) EmptyString) | None => None end.
Proof.
  intros t s W. unfold value_to_name. rewrite (scan0 _ _ (fun x => s =? x) (fun z => Some (nth (Z.to_nat z) (t_names t) EmptyString))).
  - destruct (find_index _ _); [now rewrite Nat2Z.id|reflexivity].
  - now apply n_values.
  - intros i x E. destruct (s =? x); [|reflexivity]. destruct (names_at t i x W E) as (v & V).
    rewrite (aref_ok _ _ _ _ V), Nat2Z.id. now rewrite (nth_error_nth _ _ _ V).
Qed.

(** * Lists of set bits *)
Definition bit_table (t : table) (n : nat) : Prop := wf t /\ t_n t = Z.of_nat n /\ t_values t = bits n /\ (n <= 32)%nat.
Lemma land_bit : forall mask k, 0 <= k -> negb (Z.land mask (2 ^ k) =? 0) = Z.testbit mask k.
Proof.
  intros mask k K. destruct (Z.testbit mask k) eqn:T.
  - apply negb_true_iff, Z.eqb_neq. intros E. assert (Z.testbit (Z.land mask (2 ^ k)) k = false) as F by (rewrite E; apply Z.bits_0).
    rewrite Z.land_spec, T, Z.pow2_bits_true in F by lia. discriminate.
  - apply negb_false_iff, Z.eqb_eq. apply Z.bits_inj'. intros j J. rewrite Z.land_spec, Z.bits_0.
    destruct (Z.eq_dec j k) as [->|N]; [now rewrite T|]. rewrite Z.pow2_bits_false by lia. apply andb_false_r.
Qed.
Definition bits_from (a n : nat) : list Z := map (fun k => 2 ^ Z.of_nat k) (seq a n).
Definition picks {A} (mask : Z) (f : Z -> Z -> A) (a n : nat) : list A :=
  map (fun i => f i (2 ^ i)) (filter (fun i => Z.testbit mask i) (map Z.of_nat (seq a n))).
Lemma mask_list_ok : forall A mask (f : Z -> Z -> A) cap n a out, Z.of_nat (List.length out) < cap ->
  mask_list mask f (bits_from a n) (Z.of_nat a) out cap = Ok (out ++ firstn (Z.to_nat cap - List.length out) (picks mask f a n)).
Proof.
  induction n as [|n IH]; intros a out L; [cbn; now rewrite firstn_nil, app_nil_r|].
  unfold bits_from, picks. cbn [seq map mask_list filter]. rewrite land_bit by lia. fold (bits_from (S a) n).
  destruct (Z.leb_spec cap (Z.of_nat (List.length out))); [lia|]. rewrite andb_false_r.
  destruct (Z.testbit mask (Z.of_nat a)).
  - cbn [map]. rewrite app_length. cbn [List.length].
    destruct (Z.leb_spec cap (Z.of_nat (List.length out + 1))).
    + replace (Z.to_nat cap - List.length out)%nat with 1%nat by lia. reflexivity.
    + replace (Z.of_nat a + 1) with (Z.of_nat (S a)) by lia. rewrite IH by (rewrite app_length; cbn; lia).
      rewrite app_length. cbn [List.length]. rewrite <- app_assoc. f_equal. f_equal.
      replace (Z.to_nat cap - List.length out)%nat with (S (Z.to_nat cap - (List.length out + 1)))%nat by lia. reflexivity.
  - destruct (Z.leb_spec cap (Z.of_nat (List.length out))); [lia|].
    replace (Z.of_nat a + 1) with (Z.of_nat (S a)) by lia. now rewrite IH.
Qed.
Lemma to_int_enum : forall x, to_enum (to_int x) = to_enum x.
Proof. intros. unfold to_enum, to_int. rewrite Zminus_mod_idemp_l. f_equal. lia. Qed.
Lemma enum_bits : forall x k, 0 <= k -> Z.testbit (to_enum x) k = (k <? 32) && Z.testbit x k.
Proof.
  intros. unfold to_enum. destruct (Z.ltb_spec k 32); cbn [andb]; [apply Z.mod_pow2_bits_low; lia|apply Z.mod_pow2_bits_high; lia].
Qed.
Lemma enum_lor : forall a b, to_enum (Z.lor a b) = Z.lor (to_enum a) (to_enum b).
Proof. intros. apply Z.bits_inj'. intros k K. rewrite Z.lor_spec, !enum_bits, Z.lor_spec by auto. destruct (k <? 32); reflexivity. Qed.
Lemma enum_small : forall x, 0 <= x < 2 ^ 32 -> to_enum x = x.
Proof. intros. now apply Z.mod_small. Qed.
Lemma fold_lor_bits : forall l a k, 0 <= k -> Z.testbit (fold_left Z.lor l a) k = Z.testbit a k || existsb (fun v => Z.testbit v k) l.
Proof. induction l as [|v l IH]; intros a k K; cbn; [now rewrite orb_false_r|]. rewrite IH, Z.lor_spec by auto. now rewrite orb_assoc. Qed.
Lemma enum_fold : forall vs a, to_enum (fold_left (fun m v => to_int (Z.lor m v)) vs a) = to_enum (fold_left Z.lor vs a).
Proof.
  assert (forall vs a b, to_enum a = to_enum b -> to_enum (fold_left (fun m v => to_int (Z.lor m v)) vs a) = to_enum (fold_left Z.lor vs b)) as K.
  { induction vs as [|v vs IH]; intros a b E; [exact E|]. cbn. apply IH. now rewrite to_int_enum, !enum_lor, E. }
  intros. now apply K.
Qed.
Lemma set_bits_in : forall mask n i, In i (set_bits mask n) <-> 0 <= i < Z.of_nat n /\ Z.testbit mask i = true.
Proof.
  intros. unfold set_bits. rewrite filter_In, in_map_iff. split.
  - intros [(k & <- & K) T]. apply in_seq in K. split; [lia|auto].
  - intros [I T]. split; auto. exists (Z.to_nat i). split; [lia|]. apply in_seq. lia.
Qed.
Lemma high_bits : forall x n k, 0 <= x < 2 ^ n -> 0 <= n <= k -> Z.testbit x k = false.
Proof.
  intros x n k H N. destruct (Z.eq_dec x 0) as [->|]; [apply Z.bits_0|]. apply Z.bits_above_log2; [lia|].
  assert (Z.log2 x < n) by (apply Z.log2_lt_pow2; lia). lia.
Qed.
Lemma bits_recombine : forall mask n, 0 <= mask < 2 ^ Z.of_nat n ->
  fold_left Z.lor (map (fun i => 2 ^ i) (set_bits mask n)) 0 = mask.
Proof.
  intros mask n M. apply Z.bits_inj'. intros k K. rewrite fold_lor_bits, Z.bits_0 by auto. cbn [orb].
  destruct (Z.testbit mask k) eqn:T.
  - apply existsb_exists. exists (2 ^ k). split; [|apply Z.pow2_bits_true; auto]. apply in_map_iff. exists k. split; auto.
    apply set_bits_in. split; auto. split; auto. destruct (Z.lt_ge_cases k (Z.of_nat n)); auto. exfalso.
    rewrite (high_bits mask (Z.of_nat n)) in T by lia. discriminate.
  - destruct (existsb _ _) eqn:E; [|reflexivity]. apply existsb_exists in E as (v & V & B). apply in_map_iff in V as (i & <- & I).
    apply set_bits_in in I as [I Ti]. destruct (Z.eq_dec i k) as [->|N]; [congruence|].
    rewrite Z.pow2_bits_false in B by lia. discriminate.
Qed.

(** * Strings *)
Lemma app_nil : forall s, (s ++ "")%string = s.
Proof. induction s as [|c s IH]; cbn; [reflexivity|now rewrite IH]. Qed.
Lemma app_assoc_s : forall a b c, ((a ++ b) ++ c)%string = (a ++ (b ++ c))%string.
Proof. induction a as [|x a IH]; intros; cbn; [reflexivity|now rewrite IH]. Qed.
Lemma app_len : forall a b, String.length (a ++ b) = (String.length a + String.length b)%nat.
Proof. induction a as [|x a IH]; intros; cbn; [reflexivity|now rewrite IH]. Qed.
Lemma substring_all : forall s, substring 0 (String.length s) s = s.
Proof. induction s as [|c s IH]; cbn; [reflexivity|now rewrite IH]. Qed.
Lemma get_app : forall a b k, String.get k (a ++ b) = if (k <? String.length a)%nat then String.get k a else String.get (k - String.length a) b.
Proof.
  induction a as [|c a IH]; intros b k; [cbn [append String.length]; now rewrite Nat.sub_0_r|].
  cbn [append String.length]. destruct k as [|k]; [reflexivity|]. cbn [String.get]. rewrite IH.
  replace (S k <? S (String.length a))%nat with (k <? String.length a)%nat by reflexivity. reflexivity.
Qed.
Lemma get_len : forall s k c, String.get k s = Some c -> (k < String.length s)%nat.
Proof. induction s as [|a s IH]; intros [|k] c E; cbn in *; try discriminate; [lia|apply IH in E; lia]. Qed.
Lemma delim_iff : forall c, delim c = true <-> separator c.
Proof. intros. unfold delim, separator. rewrite !orb_true_iff, !Ascii.eqb_eq. tauto. Qed.
Lemma delim_false : forall c, delim c = false <-> ~ separator c.
Proof. intros. rewrite <- delim_iff. destruct (delim c); split; intros; try discriminate; auto. exfalso; auto. Qed.

Lemma strtok_word : forall x s cur, (forall c, In c (chars x) -> ~ separator c) -> strtok (x ++ s) cur = strtok s (cur ++ x).
Proof.
  induction x as [|c x IH]; intros s cur H; [cbn; now rewrite app_nil|].
  cbn. rewrite (proj2 (delim_false c)) by (apply H; left; auto). rewrite IH by (intros; apply H; right; auto). now rewrite app_assoc_s.
Qed.
Lemma strtok_lists : forall s xs, lists s xs -> strtok s EmptyString = xs.
Proof.
  induction 1 as [|c s xs C L IH|x [N W]|x c s xs [N W] C L IH].
  - reflexivity.
  - cbn. now rewrite (proj2 (delim_iff c) C).
  - rewrite <- (app_nil x) at 1. rewrite strtok_word by auto. cbn. destruct x; [congruence|reflexivity].
  - rewrite strtok_word by auto. cbn. rewrite (proj2 (delim_iff c) C), IH. destruct x; [congruence|reflexivity].
Qed.
Lemma every_text_lists : forall s, exists xs, lists s xs.
Proof.
  assert (forall s, (exists xs, lists s xs) /\ forall x, word x -> exists xs, lists (x ++ s) xs) as K.
  { induction s as [|c s [[xs A] B]].
    - split; [eexists; constructor|]. intros x W. rewrite app_nil. eexists. now apply L_last.
    - destruct (delim c) eqn:D.
      + apply delim_iff in D. split; [eexists; apply L_sep; eauto|]. intros x W. eexists. apply L_cons; eauto.
      + apply delim_false in D.
        assert (forall x, (x = EmptyString \/ word x) -> exists ys, lists (x ++ String c s) ys) as G.
        { intros x X. replace (x ++ String c s)%string with ((x ++ String c "") ++ s)%string by (rewrite app_assoc_s; reflexivity).
          apply B. split; [destruct x; discriminate|]. intros d.
          assert (chars (x ++ String c "") = chars x ++ [c]) as -> by (clear; induction x as [|a x IH]; cbn; [reflexivity|now rewrite IH]).
          rewrite in_app_iff. intros [I|[<-|[]]]; auto. destruct X as [->|[_ X]]; [contradiction|auto]. }
        split; [apply (G EmptyString); auto|]. intros x W. apply G; auto. }
  intros s. apply K.
Qed.
Lemma lists_concat : forall xs, (forall x, In x xs -> word x) -> lists (String.concat "," xs) xs.
Proof.
  induction xs as [|x xs IH]; intros H; [constructor|].
  destruct xs as [|y xs]; [cbn; apply L_last, H; left; auto|].
  change (String.concat "," (x :: y :: xs)) with (x ++ String "," (String.concat "," (y :: xs)))%string.
  apply L_cons; [apply H; left; auto|left; auto|]. apply IH. intros; apply H; right; auto.
Qed.

(** * Parsing *)
Lemma parse_all : forall t n xs m, bit_table t n -> 0 <= m < 2 ^ 31 ->
  (forall x, In x xs -> exists k, find_index (fun y => String.eqb x y) (t_names t) = Some k /\ (k < 31)%nat) ->
  exists m', parse t xs m = Ok m' /\ 0 <= m' < 2 ^ 31 /\
    forall j, 0 <= j -> Z.testbit m' j = Z.testbit m j || existsb (fun x => match find_index (fun y => String.eqb x y) (t_names t) with Some k => j =? Z.of_nat k | None => false end) xs.
Proof.
  intros t n xs. induction xs as [|x xs IH]; intros m (W & Tn & Tv & N32) M H.
  - exists m. cbn. repeat split; auto; try lia. intros. now rewrite orb_false_r.
  - destruct (H x (or_introl eq_refl)) as (k & K & L). cbn [parse existsb]. rewrite name_to_value_eq by auto. rewrite K.
    assert (k < n)%nat as KN.
    { apply find_sound in K as (y & Y & _). assert (k < List.length (t_names t))%nat by (apply nth_error_Some; congruence). destruct W as [A _ _ _]. lia. }
    assert (nth k (t_values t) 0 = 2 ^ Z.of_nat k) as V.
    { rewrite Tv. unfold bits. replace (nth k (map (fun k => 2 ^ Z.of_nat k) (seq 0 n)) 0) with (nth k (map (fun k => 2 ^ Z.of_nat k) (seq 0 n)) (2 ^ Z.of_nat 0)).
      - rewrite (map_nth (fun k => 2 ^ Z.of_nat k)), seq_nth by auto. reflexivity.
      - apply nth_indep. rewrite map_length, seq_length. auto. }
    rewrite V. assert (0 < 2 ^ Z.of_nat k < 2 ^ 31) as P by (split; [apply Z.pow_pos_nonneg; lia|apply Z.pow_lt_mono_r; lia]).
    assert (forall y, 0 <= y < 2 ^ 31 -> to_int y = y) as TI by (intros y Y; unfold to_int; rewrite Z.mod_small; lia).
    rewrite (TI (2 ^ Z.of_nat k)) by lia. destruct (Z.ltb_spec (2 ^ Z.of_nat k) 0); [lia|].
    assert (0 <= Z.lor m (2 ^ Z.of_nat k) < 2 ^ 31) as B.
    { split; [apply Z.lor_nonneg; lia|]. destruct (Z.lt_ge_cases (Z.lor m (2 ^ Z.of_nat k)) (2 ^ 31)) as [|G]; auto. exfalso.
      assert (31 <= Z.log2 (Z.lor m (2 ^ Z.of_nat k))) as LG by (apply Z.log2_le_pow2; lia).
      assert (Z.testbit (Z.lor m (2 ^ Z.of_nat k)) (Z.log2 (Z.lor m (2 ^ Z.of_nat k))) = true) as TB by (apply Z.bit_log2; lia).
      rewrite Z.lor_spec, (high_bits m 31), (high_bits (2 ^ Z.of_nat k) 31) in TB by lia. discriminate. }
    rewrite TI by lia. destruct (IH (Z.lor m (2 ^ Z.of_nat k))) as (m' & P1 & P2 & P3); [exact (conj W (conj Tn (conj Tv N32)))|lia|intros; apply H; right; auto|].
    exists m'. split; [exact P1|]. split; [exact P2|]. intros j J. rewrite P3, Z.lor_spec, Z.pow2_bits_eqb by lia. rewrite Z.eqb_sym. now rewrite <- orb_assoc.
Qed.
Lemma parse_bad : forall t n xs m, bit_table t n ->
  (exists x, In x xs /\ match find_index (fun y => String.eqb x y) (t_names t) with Some k => (31 <= k)%nat | None => True end) ->
  parse t xs m = Ok (-1).
Proof.
  intros t n xs. induction xs as [|x xs IH]; intros m T (y & I & Y); [contradiction|].
  assert (T' := T). destruct T' as (W & Tn & Tv & N32). cbn [parse]. rewrite name_to_value_eq by auto.
  destruct I as [->|I].
  - destruct (find_index _ _) as [k|] eqn:K; [|reflexivity].
    assert (k < n)%nat as KN.
    { apply find_sound in K as (z & Z1 & _). assert (k < List.length (t_names t))%nat by (apply nth_error_Some; congruence). destruct W as [A _ _ _]. lia. }
    assert (k = 31 /\ n = 32)%nat as [-> ->] by lia. rewrite Tv. reflexivity.
  - destruct (find_index (fun y => String.eqb x y) (t_names t)) as [k|]; [|reflexivity].
    destruct (to_int _ <? 0); [reflexivity|]. apply IH; [auto|]. exists y. auto.
Qed.

(** * Writing a list *)
Lemma put_string_ok : forall s cap i b, 0 <= i -> i + Z.of_nat (String.length s) <= cap ->
  exists b', put_string cap i s b = Ok b' /\ (forall k c, String.get k s = Some c -> b' (i + Z.of_nat k) = c) /\
    (forall k, k < i \/ i + Z.of_nat (String.length s) <= k -> b' k = b k).
Proof.
  induction s as [|c s IH]; intros cap i b I L.
  - exists b. cbn. repeat split; auto. intros k c E. destruct k; discriminate.
  - cbn [put_string String.length] in *. unfold put. destruct (Z.ltb_spec i 0), (Z.leb_spec cap i); try lia. cbn [orb].
    destruct (IH cap (i + 1) (fun k => if k =? i then c else b k)) as (b' & E & G & F); [lia|lia|].
    exists b'. split; [exact E|]. split.
    + intros [|k] a K; cbn in K.
      * injection K as <-. rewrite F by lia. destruct (Z.eqb_spec (i + Z.of_nat 0) i); [reflexivity|lia].
      * replace (i + Z.of_nat (S k)) with (i + 1 + Z.of_nat k) by lia. now apply G.
    + intros k K. rewrite F by lia. destruct (Z.eqb_spec k i); [lia|reflexivity].
Qed.
Lemma snprintf_ok : forall x cap n b, 0 <= n -> n + Z.of_nat (String.length x) < cap -> cap < 2 ^ 64 ->
  exists b', snprintf cap n (cap - n) x b = Ok b' /\ (forall k c, String.get k x = Some c -> b' (n + Z.of_nat k) = c) /\
    b' (n + Z.of_nat (String.length x)) = zero /\
    (forall k, k < n \/ n + Z.of_nat (String.length x) < k -> b' k = b k).
Proof.
  intros x cap n b N L C. unfold snprintf. rewrite Z.mod_small by lia. destruct (Z.eqb_spec (cap - n) 0); [lia|].
  rewrite Z.min_l by lia. rewrite Nat2Z.id, substring_all.
  destruct (put_string_ok x cap n b N ltac:(lia)) as (b' & E & G & F). rewrite E. unfold put.
  destruct (Z.ltb_spec (n + Z.of_nat (String.length x)) 0), (Z.leb_spec cap (n + Z.of_nat (String.length x))); try lia. cbn [orb].
  eexists. split; [reflexivity|]. split; [|split].
  - intros k c K. assert (L1 := get_len _ _ _ K). destruct (Z.eqb_spec (n + Z.of_nat k) (n + Z.of_nat (String.length x))); [lia|]. now apply G.
  - now rewrite Z.eqb_refl.
  - intros k K. destruct (Z.eqb_spec k (n + Z.of_nat (String.length x))); [lia|]. apply F. lia.
Qed.
(** Text so far, without the null. *)
Definition starts (b b0 : buffer) (s : string) : Prop :=
  (forall k c, String.get k s = Some c -> b (Z.of_nat k) = c) /\ (forall k, k < 0 \/ Z.of_nat (String.length s) < k -> b k = b0 k).
Lemma starts_app : forall b b0 b' s x,
  starts b b0 s -> (forall k c, String.get k x = Some c -> b' (Z.of_nat (String.length s) + Z.of_nat k) = c) ->
  (forall k, k < Z.of_nat (String.length s) \/ Z.of_nat (String.length s) + Z.of_nat (String.length x) < k -> b' k = b k) ->
  starts b' b0 (s ++ x).
Proof.
  intros b b0 b' s x [A B] C D. split.
  - intros k c K. rewrite get_app in K. destruct (Nat.ltb_spec k (String.length s)).
    + rewrite D by lia. now apply A.
    + replace (Z.of_nat k) with (Z.of_nat (String.length s) + Z.of_nat (k - String.length s)) by lia. now apply C.
  - intros k K. rewrite app_len in K. rewrite D by lia. apply B. lia.
Qed.
Definition chosen (mask : Z) (l : list (Z * string)) : list string := map snd (filter (fun p => negb (Z.land mask (fst p) =? 0)) l).
(** What the loop appends. *)
Definition tail_text (flag : bool) (xs : list string) : string := if flag then fold_right (fun x s => "," ++ (x ++ s))%string EmptyString xs else String.concat "," xs.
Lemma tail_text_cons : forall flag x xs, tail_text flag (x :: xs) = ((if flag then "," else "") ++ (x ++ tail_text true xs))%string.
Proof.
  assert (forall xs x, String.concat "," (x :: xs) = (x ++ fold_right (fun x s => "," ++ (x ++ s))%string EmptyString xs)%string) as K.
  { induction xs as [|y xs IH]; intros x; [cbn; now rewrite app_nil|]. change (String.concat "," (x :: y :: xs)) with (x ++ ("," ++ String.concat "," (y :: xs)))%string. rewrite IH. reflexivity. }
  intros [] x xs; cbn [tail_text]; [reflexivity|]. rewrite K. reflexivity.
Qed.
Lemma name_list_ok : forall mask cap l b0 b s flag, cap < 2 ^ 64 -> starts b b0 s ->
  Z.of_nat (String.length s) + Z.of_nat (String.length (tail_text flag (chosen mask l))) < cap ->
  exists b', name_list mask l (Z.of_nat (String.length s)) flag cap b = Ok (Z.of_nat (String.length (s ++ tail_text flag (chosen mask l))), b') /\
    starts b' b0 (s ++ tail_text flag (chosen mask l)).
Proof.
  intros mask cap. induction l as [|[v x] l IH]; intros b0 b s flag C S L.
  - assert (tail_text flag (chosen mask []) = EmptyString) as E by (destruct flag; reflexivity). rewrite E, app_nil. cbn. eauto.
  - unfold chosen in *. cbn [name_list filter fst]. destruct (negb (Z.land mask v =? 0)) eqn:T.
    2:{ cbn [filter fst] in L. rewrite T in L. destruct (IH b0 b s flag C S L) as (b' & E & G). eauto. }
    cbn [filter fst] in L. rewrite T in L. cbn [map snd] in *. rewrite tail_text_cons in *. rewrite !app_len in L.
    assert (exists b1, (if flag then match snprintf cap (Z.of_nat (String.length s)) (cap - Z.of_nat (String.length s)) "," b with Ok b => Ok (Z.of_nat (String.length s) + 1, b) | Err c => Err c | UB => UB end else Ok (Z.of_nat (String.length s), b))
       = Ok (Z.of_nat (String.length (s ++ (if flag then "," else ""))), b1) /\ starts b1 b0 (s ++ (if flag then "," else ""))) as (b1 & E1 & S1).
    { destruct flag.
      - destruct (snprintf_ok "," cap (Z.of_nat (String.length s)) b) as (b1 & E & G & _ & F); [lia|cbn in *; lia|auto|].
        rewrite E. exists b1. split; [rewrite app_len; cbn; do 2 f_equal; lia|]. eapply starts_app; eauto.
      - rewrite app_nil. eauto. }
    rewrite E1. destruct (snprintf_ok x cap (Z.of_nat (String.length (s ++ (if flag then "," else "")))) b1) as (b2 & E & G & _ & F); [lia|rewrite app_len; lia|auto|].
    rewrite E. assert (starts b2 b0 ((s ++ (if flag then "," else "")) ++ x)) as S2 by (eapply starts_app; eauto).
    rewrite <- Nat2Z.inj_add, <- app_len.
    destruct (IH b0 b2 _ true C S2) as (b3 & E3 & S3); [rewrite !app_len; lia|].
    rewrite E3. exists b3. split; [|rewrite !app_assoc_s in S3; exact S3]. now rewrite !app_assoc_s.
Qed.
Lemma put_string_noerr : forall s cap i b, put_string cap i s b = UB \/ exists b', put_string cap i s b = Ok b'.
Proof.
  induction s as [|c s IH]; intros cap i b; cbn; [eauto|]. unfold put. destruct ((i <? 0) || (cap <=? i)); auto.
Qed.
Lemma snprintf_noerr : forall cap n z x b, snprintf cap n z x b = UB \/ exists b', snprintf cap n z x b = Ok b'.
Proof.
  intros. unfold snprintf. cbv zeta. destruct (_ =? 0); [eauto|]. destruct (put_string_noerr (substring 0 (Z.to_nat (Z.min (Z.of_nat (String.length x)) (z mod 2 ^ 64 - 1))) x) cap n b) as [->|[b' ->]]; auto.
  unfold put. destruct (_ || _); eauto.
Qed.
Lemma name_list_len : forall mask cap l n flag b, name_list mask l n flag cap b = UB \/
  exists b', name_list mask l n flag cap b = Ok (n + Z.of_nat (String.length (tail_text flag (chosen mask l))), b').
Proof.
  intros mask cap. induction l as [|[v x] l IH]; intros n flag b.
  - right. exists b. destruct flag; cbn; now rewrite Z.add_0_r.
  - unfold chosen in *. cbn [name_list filter fst]. destruct (negb (Z.land mask v =? 0)) eqn:T; [|apply IH].
    cbn [map snd]. rewrite tail_text_cons, !app_len.
    destruct flag.
    + destruct (snprintf_noerr cap n (cap - n) "," b) as [->|[b1 ->]]; auto.
      destruct (snprintf_noerr cap (n + 1) (cap - (n + 1)) x b1) as [->|[b2 ->]]; auto.
      destruct (IH (n + 1 + Z.of_nat (String.length x)) true b2) as [->|[b3 ->]]; auto. right. exists b3. do 2 f_equal. cbn [String.length]. lia.
    + destruct (snprintf_noerr cap n (cap - n) x b) as [->|[b2 ->]]; auto.
      destruct (IH (n + Z.of_nat (String.length x)) true b2) as [->|[b3 ->]]; auto. right. exists b3. do 2 f_equal. cbn [String.length]. lia.
Qed.
Lemma chosen_bits : forall mask a n names, List.length names = n ->
  chosen mask (combine (bits_from a n) names) = map (fun i => nth (Z.to_nat i - a) names EmptyString) (filter (fun i => Z.testbit mask i) (map Z.of_nat (seq a n))).
Proof.
  intros mask a n names L. revert a names L. induction n as [|n IH]; intros a names L; [reflexivity|].
  destruct names as [|x names]; [discriminate|]. unfold chosen, bits_from. cbn [seq map combine filter fst]. rewrite land_bit by lia.
  fold (bits_from (S a) n). specialize (IH (S a) names ltac:(cbn in L; lia)). unfold chosen in IH.
  assert (map (fun i => nth (Z.to_nat i - a) (x :: names) EmptyString) (filter (fun i => Z.testbit mask i) (map Z.of_nat (seq (S a) n))) =
          map (fun i => nth (Z.to_nat i - S a) names EmptyString) (filter (fun i => Z.testbit mask i) (map Z.of_nat (seq (S a) n)))) as K.
  { apply map_ext_in. intros i I. apply filter_In in I as [I _]. apply in_map_iff in I as (k & <- & I). apply in_seq in I.
    rewrite Nat2Z.id. replace (k - a)%nat with (S (k - S a)) by lia. reflexivity. }
  destruct (Z.testbit mask (Z.of_nat a)); cbn [map snd].
  - rewrite IH, K. f_equal. rewrite Nat2Z.id, Nat.sub_diag. reflexivity.
  - rewrite IH. exact (eq_sym K).
Qed.
