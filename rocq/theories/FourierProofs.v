From Coq Require Import ZArith List Bool Lia SpecFloat Arith.
From Verif Require Import Dbl DblOrder DerivsModel FourierModel FourierSpec.
Import ListNotations.
Open Scope nat_scope.

(* ------------------------------------------------------------------------- *)
(** * azimuth_modes                                                           *)
Section Modes.
Variables (T : Type) (mul add : T -> T -> T).
Lemma put_spec : forall fs v1 v2 ii d x,
  snd (put_modes T mul fs v1 (v2, ii)) = ii + length fs /\
  fst (put_modes T mul fs v1 (v2, ii)) x = if (ii <=? x) && (x <? ii + length fs) then mul (v1 x) (nth (x - ii) fs d) else v2 x.
Proof.
  induction fs as [|f fs IH]; intros v1 v2 ii d x; unfold put_modes; cbn [fold_left length].
  - cbn [fst snd]. split; [lia|]. destruct (Nat.leb_spec ii x) as [A|A], (Nat.ltb_spec x (ii + 0)) as [B|B]; cbn [andb]; try reflexivity; exfalso; lia.
  - destruct (IH v1 (set1 v2 ii (mul (v1 ii) f)) (S ii) d x) as [A B]. unfold put_modes in A, B. cbn [fold_left].
    rewrite A, B. split; [lia|]. unfold set1. destruct (Nat.eqb_spec x ii) as [->|N].
    + rewrite Nat.sub_diag. destruct (Nat.leb_spec (S ii) ii); [lia|]. cbn [andb nth].
      destruct (Nat.leb_spec ii ii), (Nat.ltb_spec ii (ii + S (length fs))); try lia. reflexivity.
    + destruct (Nat.leb_spec (S ii) x), (Nat.leb_spec ii x), (Nat.ltb_spec x (S ii + length fs)), (Nat.ltb_spec x (ii + S (length fs))); try lia; cbn [andb]; try reflexivity.
      replace (x - ii) with (S (x - S ii)) by lia. reflexivity.
Qed.
Lemma put_a_spec : forall fs v2 v1 ii d x,
  snd (put_modes_a T mul add fs v2 (v1, ii)) = ii + length fs /\
  fst (put_modes_a T mul add fs v2 (v1, ii)) x = if (ii <=? x) && (x <? ii + length fs) then add (v1 x) (mul (v2 x) (nth (x - ii) fs d)) else v1 x.
Proof.
  induction fs as [|f fs IH]; intros v2 v1 ii d x; unfold put_modes_a; cbn [fold_left length].
  - cbn [fst snd]. split; [lia|]. destruct (Nat.leb_spec ii x) as [A|A], (Nat.ltb_spec x (ii + 0)) as [B|B]; cbn [andb]; try reflexivity; exfalso; lia.
  - destruct (IH v2 (set1 v1 ii (add (v1 ii) (mul (v2 ii) f))) (S ii) d x) as [A B]. unfold put_modes_a in A, B. cbn [fold_left].
    rewrite A, B. split; [lia|]. unfold set1. destruct (Nat.eqb_spec x ii) as [->|N].
    + rewrite Nat.sub_diag. destruct (Nat.leb_spec (S ii) ii); [lia|]. cbn [andb nth].
      destruct (Nat.leb_spec ii ii), (Nat.ltb_spec ii (ii + S (length fs))); try lia. reflexivity.
    + destruct (Nat.leb_spec (S ii) x), (Nat.leb_spec ii x), (Nat.ltb_spec x (S ii + length fs)), (Nat.ltb_spec x (ii + S (length fs))); try lia; cbn [andb]; try reflexivity.
      replace (x - ii) with (S (x - S ii)) by lia. reflexivity.
Qed.
Lemma loop_modes : forall fs v1 v2 d n x,
  let r := loop n (fun _ => put_modes T mul fs v1) (v2, 0) in
  snd r = n * length fs /\ fst r x = if x <? n * length fs then mul (v1 x) (nth (x mod length fs) fs d) else v2 x.
Proof.
  intros fs v1 v2 d. induction n as [|n IH]; intros x; cbv zeta in *; cbn [loop].
  - split; [reflexivity|]. destruct (Nat.ltb_spec x (0 * length fs)); [lia|reflexivity].
  - destruct (IH x) as [A B]. destruct (loop n _ _) as [v ii]. cbn [fst snd] in A, B. subst ii.
    destruct (put_spec fs v1 v (n * length fs) d x) as [P Q]. rewrite P, Q, B. split; [lia|].
    destruct (Nat.leb_spec (n * length fs) x), (Nat.ltb_spec x (n * length fs + length fs)), (Nat.ltb_spec x (n * length fs)), (Nat.ltb_spec x (S n * length fs)); cbn [andb]; try lia; try reflexivity.
    f_equal. f_equal. replace (x mod length fs) with (x - n * length fs); [reflexivity|].
    apply (Nat.mod_unique _ _ n); lia.
Qed.
Lemma loop_modes_a : forall fs v2 v1 d n x,
  let r := loop n (fun _ => put_modes_a T mul add fs v2) (v1, 0) in
  snd r = n * length fs /\ fst r x = if x <? n * length fs then add (v1 x) (mul (v2 x) (nth (x mod length fs) fs d)) else v1 x.
Proof.
  intros fs v2 v1 d. induction n as [|n IH]; intros x; cbv zeta in *; cbn [loop].
  - split; [reflexivity|]. destruct (Nat.ltb_spec x (0 * length fs)); [lia|reflexivity].
  - destruct (IH x) as [A B]. destruct (loop n _ _) as [v ii]. cbn [fst snd] in A, B. subst ii.
    destruct (put_a_spec fs v2 v (n * length fs) d x) as [P Q]. rewrite P, Q, B. split; [lia|].
    destruct (Nat.leb_spec (n * length fs) x), (Nat.ltb_spec x (n * length fs + length fs)), (Nat.ltb_spec x (n * length fs)), (Nat.ltb_spec x (S n * length fs)); cbn [andb]; try lia; try reflexivity.
    f_equal. f_equal. f_equal. replace (x mod length fs) with (x - n * length fs); [reflexivity|].
    apply (Nat.mod_unique _ _ n); lia.
Qed.
Definition factor (a b : T) (s : nat) : T := if s <? 2 then a else b.
Lemma factors_ok : forall ns a b, 1 <= ns <= 4 ->
  let fs := match ns with 1 => [a] | 2 => [a; a] | 3 => [a; a; b] | _ => [a; a; b; b] end in
  length fs = ns /\ forall s, s < ns -> nth s fs a = factor a b s.
Proof.
  intros ns a b H. do 5 (destruct ns as [|ns]; [try lia; (split; [reflexivity|]); intros s L; do 4 (destruct s as [|s]; [reflexivity||lia|]); lia|]); lia.
Qed.
Lemma modes_at : forall nq ns a b v1 v2 x, 1 <= ns <= 4 ->
  azimuth_modes mul nq ns a b v1 v2 x = if x <? nq * ns then mul (v1 x) (factor a b (x mod ns)) else v2 x.
Proof.
  intros. unfold azimuth_modes. destruct (factors_ok ns a b H) as [L F]. cbv zeta in *.
  set (fs := match ns with 1 => _ | _ => _ end) in *.
  destruct (loop_modes fs v1 v2 a nq x) as [_ E]. cbv zeta in E. rewrite E, L.
  destruct (x <? nq * ns); [|reflexivity]. f_equal. apply F. apply Nat.mod_upper_bound. lia.
Qed.
Lemma modes_a_at : forall nq ns a b v1 v2 x, 1 <= ns <= 4 ->
  azimuth_modes_a mul add nq ns a b v1 v2 x = if x <? nq * ns then add (v1 x) (mul (v2 x) (factor a b (x mod ns))) else v1 x.
Proof.
  intros. unfold azimuth_modes_a. destruct (factors_ok ns a b H) as [L F]. cbv zeta in *.
  set (fs := match ns with 1 => _ | _ => _ end) in *.
  destruct (loop_modes_a fs v2 v1 a nq x) as [_ E]. cbv zeta in E. rewrite E, L.
  destruct (x <? nq * ns); [|reflexivity]. f_equal. f_equal. apply F. apply Nat.mod_upper_bound. lia.
Qed.
End Modes.

(* ------------------------------------------------------------------------- *)
(** * One term                                                                *)
Lemma loop_fold : forall S n (body : nat -> S -> S) s, loop n body s = fold_left (fun s i => body i s) (seq 0 n) s.
Proof.
  induction n as [|n IH]; intros; [reflexivity|]. cbn [loop]. rewrite seq_S, fold_left_app, <- IH. reflexivity.
Qed.
Lemma fold_flat : forall A B S (f : A -> list B) (body : S -> B -> S) l s,
  fold_left body (flat_map f l) s = fold_left (fun s a => fold_left body (f a) s) l s.
Proof. induction l as [|a l IH]; intros s; [reflexivity|]. cbn. now rewrite fold_left_app, IH. Qed.
Lemma fold_map : forall A B S (f : A -> B) (body : S -> B -> S) l s,
  fold_left body (map f l) s = fold_left (fun s a => body s (f a)) l s.
Proof. induction l as [|a l IH]; intros s; [reflexivity|]. cbn. now rewrite IH. Qed.
Lemma fold_ext : forall A S (f g : S -> A -> S) l s, (forall s x, In x l -> f s x = g s x) -> fold_left f l s = fold_left g l s.
Proof.
  induction l as [|a l IH]; intros s H; [reflexivity|]. cbn. rewrite H by (left; auto). apply IH. intros; apply H; right; auto.
Qed.

Lemma accumulate_at : forall n f j k l v j' k' l' s',
  accumulate n f j k l v j' k' l' s' =
  if (j' =? j) && (k' =? k) && (l' =? l) && (s' <? n) then dadd (f j' k' l' s') (v s') else f j' k' l' s'.
Proof.
  induction n as [|n IH]; intros; unfold accumulate in *; cbn [loop].
  - destruct (Nat.ltb_spec s' 0); [lia|]. now rewrite !andb_false_r.
  - rewrite !IH. rewrite Nat.ltb_irrefl, andb_false_r.
    destruct (Nat.eqb_spec j' j) as [->|]; cbn [andb]; [|reflexivity].
    destruct (Nat.eqb_spec k' k) as [->|]; cbn [andb]; [|reflexivity].
    destruct (Nat.eqb_spec l' l) as [->|]; cbn [andb]; [|reflexivity].
    destruct (Nat.eqb_spec s' n) as [->|].
    + destruct (Nat.ltb_spec n (S n)); [reflexivity|lia].
    + destruct (Nat.ltb_spec s' n), (Nat.ltb_spec s' (S n)); try lia; reflexivity.
Qed.

Definition cell := (nat * nat * nat)%type.
Definition ceqb (x y : cell) : bool := let '(j, k, l) := x in let '(j', k', l') := y in (j =? j') && (k =? k') && (l =? l').
Lemma ceqb_spec : forall x y, ceqb x y = true <-> x = y.
Proof.
  intros [[j k] l] [[j' k'] l']. cbn. rewrite !andb_true_iff, !Nat.eqb_eq. split; [intros [[-> ->] ->]; reflexivity|intros E; injection E; auto].
Qed.
Definition mem (x : cell) (L : list cell) : bool := existsb (ceqb x) L.
Lemma mem_in : forall x L, mem x L = true <-> In x L.
Proof.
  intros. unfold mem. rewrite existsb_exists. split; [intros (y & Y & E); apply ceqb_spec in E; now subst|].
  intros H. exists x. split; auto. now apply ceqb_spec.
Qed.

Section Channel.
Variables (pr : rad -> field) (ok : nat -> bool) (w : field) (body : cell -> rad -> rad).
Hypothesis H : forall x r j k l s, pr (body x r) j k l s =
  if ceqb (j, k, l) x && ok s then dadd (pr r j k l s) (w j k l s) else pr r j k l s.
Lemma channel : forall L, NoDup L -> forall r j k l s,
  pr (fold_left (fun r x => body x r) L r) j k l s =
  if mem (j, k, l) L && ok s then dadd (pr r j k l s) (w j k l s) else pr r j k l s.
Proof.
  induction L as [|x L IH]; intros ND r j k l s; [reflexivity|]. inversion_clear ND as [|? ? N ND'].
  cbn [fold_left]. rewrite IH by auto. rewrite H. change (mem (j, k, l) (x :: L)) with (ceqb (j, k, l) x || mem (j, k, l) L).
  destruct (ceqb (j, k, l) x) eqn:E; cbn [orb andb].
  - apply ceqb_spec in E. subst x. destruct (mem (j, k, l) L) eqn:M; [apply mem_in in M; contradiction|].
    cbn [andb]. reflexivity.
  - reflexivity.
Qed.
End Channel.

Section Terms.
Variables (g : fcfg).
Notation ns := (f_stokes g).
Definition cells : list cell :=
  flat_map (fun j => flat_map (fun k => map (fun l => (j, k, l)) (seq 0 (f_phis g))) (seq 0 (f_mus g))) (seq 0 (f_levels g)).
Lemma cells_in : forall j k l, In (j, k, l) cells <-> output g j k l.
Proof.
  intros. unfold cells, output. rewrite in_flat_map. split.
  - intros (j' & J & K). apply in_flat_map in K as (k' & K & L). apply in_map_iff in L as (l' & E & L).
    injection E as -> -> ->. apply in_seq in J, K, L. lia.
  - intros (J & K & L). exists j. split; [apply in_seq; lia|]. apply in_flat_map. exists k. split; [apply in_seq; lia|].
    apply in_map_iff. exists l. split; auto. apply in_seq. lia.
Qed.
Lemma nodup_flat : forall A B (f : A -> list B) l, NoDup l -> (forall a, In a l -> NoDup (f a)) ->
  (forall a b x, In a l -> In b l -> In x (f a) -> In x (f b) -> a = b) -> NoDup (flat_map f l).
Proof.
  induction l as [|a l IH]; intros N F D; [constructor|]. inversion_clear N as [|? ? NI N']. cbn.
  assert (forall (p q : list B), NoDup p -> NoDup q -> (forall x, In x p -> ~ In x q) -> NoDup (p ++ q)) as AP.
  { induction p as [|x p IHp]; intros q Np Nq Hd; [exact Nq|]. inversion_clear Np. cbn. constructor.
    - rewrite in_app_iff. intros [K|K]; [auto|]. apply (Hd x); [left; auto|auto].
    - apply IHp; auto. intros y Y. apply Hd. right. auto. }
  apply AP.
  - apply F. left; auto.
  - apply IH; auto; [intros; apply F; right; auto|intros; eapply D; eauto; right; auto].
  - intros x X K. apply in_flat_map in K as (b & Bi & Xb). apply NI. rewrite (D a b x); auto; [left; auto|right; auto].
Qed.
Lemma cells_nodup : NoDup cells.
Proof.
  unfold cells. apply nodup_flat; [apply seq_NoDup| |].
  - intros j _. apply nodup_flat; [apply seq_NoDup| |].
    + intros k _. generalize (seq_NoDup (f_phis g) 0). generalize (seq 0 (f_phis g)). induction 1; cbn; constructor; auto.
      intros K. apply in_map_iff in K as (y & E & Y). injection E as ->. contradiction.
    + intros k k' x _ _ A B. apply in_map_iff in A as (a & <- & _). apply in_map_iff in B as (b & E & _). now injection E.
  - intros j j' x _ _ A B. apply in_flat_map in A as (a & _ & A). apply in_map_iff in A as (a' & <- & _).
    apply in_flat_map in B as (b & _ & B). apply in_map_iff in B as (b' & E & _). now injection E.
Qed.

Definition body (i : nat) (t : component) (x : cell) (r : rad) : rad :=
  let '(j, k, l) := x in azimuth g i t j k l ((f_first_mu g + k) * ns) r.
Definition clear_e (r : rad) : rad := {| r_p := r_p r; r_m := r_m r; r_pl := r_pl r; r_ml := r_ml r; r_e := d_zero |}.
Lemma add_term_fold : forall i t r, add_term g i t r = fold_left (fun r x => body i t x r) cells (clear_e r).
Proof.
  intros. unfold add_term, cells. rewrite loop_fold, fold_flat. apply fold_ext. intros s j _.
  assert (forall n s, loop n (fun k '(r, kk) => (loop (f_phis g) (fun l r => azimuth g i t j k l kk r) r, kk + ns)) (s, f_first_mu g * ns)
    = (fold_left (fun r x => body i t x r) (flat_map (fun k => map (fun l => (j, k, l)) (seq 0 (f_phis g))) (seq 0 n)) s, (f_first_mu g + n) * ns)) as K.
  { induction n as [|n IH]; intros s'; [cbn; f_equal; lia|]. cbn [loop]. rewrite IH. f_equal; [|lia].
    rewrite seq_S, flat_map_app, fold_left_app. cbn [plus flat_map]. rewrite app_nil_r, loop_fold, fold_map. reflexivity. }
  rewrite K. reflexivity.
Qed.

Hypothesis NS : 1 <= f_stokes g <= 4.
Lemma from_modes : forall b c v kk s, s < ns -> modes g b c (from v kk) s = dmul (v (kk + s)) (factor _ b c s).
Proof.
  intros. unfold modes. rewrite (modes_at _ _ 1 ns) by exact NS. rewrite Nat.mul_1_l.
  destruct (Nat.ltb_spec s ns); [|lia]. rewrite Nat.mod_small by auto. reflexivity.
Qed.

Lemma ite_ab : forall A (b : bool) (x y : A), (if b then x else y) = if b && true then x else y.
Proof. intros. now rewrite andb_true_r. Qed.

(** Effect of one cell on each array. *)
Lemma body_p : forall i t x r j k l s, r_p (body i t x r) j k l s =
  if ceqb (j, k, l) x && (f_up g && (s <? ns)) then dadd (r_p r j k l s) (contribution g (fun _ => c_p t) i j k l s) else r_p r j k l s.
Proof.
  intros i t [[j0 k0] l0] r j k l s. unfold body, azimuth. cbv zeta.
  destruct (loop (f_derivs g) _ _) as [pl ml]. cbn [r_p].
  destruct (f_up g); cbn [andb]; [|now rewrite andb_false_r].
  rewrite accumulate_at. cbn [ceqb].
  destruct (Nat.eqb_spec j j0) as [->|]; cbn [andb]; [|reflexivity].
  destruct (Nat.eqb_spec k k0) as [->|]; cbn [andb]; [|reflexivity].
  destruct (Nat.eqb_spec l l0) as [->|]; cbn [andb]; [|reflexivity].
  destruct (Nat.ltb_spec s ns); [|reflexivity]. rewrite from_modes by auto. reflexivity.
Qed.
Lemma body_m : forall i t x r j k l s, r_m (body i t x r) j k l s =
  if ceqb (j, k, l) x && (f_down g && (s <? ns)) then dadd (r_m r j k l s) (contribution g (fun _ => c_m t) i j k l s) else r_m r j k l s.
Proof.
  intros i t [[j0 k0] l0] r j k l s. unfold body, azimuth. cbv zeta.
  destruct (loop (f_derivs g) _ _) as [pl ml]. cbn [r_m].
  destruct (f_down g); cbn [andb]; [|now rewrite andb_false_r].
  rewrite accumulate_at. cbn [ceqb].
  destruct (Nat.eqb_spec j j0) as [->|]; cbn [andb]; [|reflexivity].
  destruct (Nat.eqb_spec k k0) as [->|]; cbn [andb]; [|reflexivity].
  destruct (Nat.eqb_spec l l0) as [->|]; cbn [andb]; [|reflexivity].
  destruct (Nat.ltb_spec s ns); [|reflexivity]. rewrite from_modes by auto. reflexivity.
Qed.
Lemma body_l : forall i t x r q j k l s,
  r_pl (body i t x r) q j k l s =
  (if ceqb (j, k, l) x && (f_up g && (q <? f_derivs g) && (s <? ns)) then dadd (r_pl r q j k l s) (contribution g (fun _ j => c_pl t j q) i j k l s) else r_pl r q j k l s)
  /\ r_ml (body i t x r) q j k l s =
  (if ceqb (j, k, l) x && (f_down g && (q <? f_derivs g) && (s <? ns)) then dadd (r_ml r q j k l s) (contribution g (fun _ j => c_ml t j q) i j k l s) else r_ml r q j k l s).
Proof.
  intros i t [[j0 k0] l0] r q j k l s. unfold body, azimuth. cbv zeta.
  set (kk := (f_first_mu g + k0) * ns).
  match goal with |- context [loop (f_derivs g) ?f ?a] => set (st := f) end.
  assert (forall n q j k l s, 
    fst (loop n st (r_pl r, r_ml r)) q j k l s =
    (if ceqb (j, k, l) (j0, k0, l0) && (f_up g && (q <? n) && (s <? ns)) then dadd (r_pl r q j k l s) (contribution g (fun _ j => c_pl t j q) i j k l s) else r_pl r q j k l s) /\
    snd (loop n st (r_pl r, r_ml r)) q j k l s =
    (if ceqb (j, k, l) (j0, k0, l0) && (f_down g && (q <? n) && (s <? ns)) then dadd (r_ml r q j k l s) (contribution g (fun _ j => c_ml t j q) i j k l s) else r_ml r q j k l s)) as K.
  { clear q j k l s. induction n as [|n IH]; intros q j k l s; cbn [loop].
    - cbn [fst snd]. destruct (Nat.ltb_spec q 0); [lia|]. rewrite ?andb_false_r. cbn [andb]. rewrite ?andb_false_r. split; reflexivity.
    - assert (In_ := IH n j k l s). specialize (IH q j k l s). destruct (loop n st _) as [pl ml]. cbn [fst snd] in IH, In_ |- *.
      unfold st. cbn [fst snd]. rewrite Nat.ltb_irrefl in In_. rewrite ?andb_false_r in In_. cbn [andb] in In_. rewrite ?andb_false_r in In_.
      destruct IH as [IHp IHm], In_ as [Ip Im]. split.
      + destruct (f_up g); cbn [andb] in *; [|rewrite ?andb_false_r in *; exact IHp].
        destruct (Nat.eqb_spec q n) as [->|N].
        * rewrite accumulate_at, Ip. cbn [ceqb]. destruct (Nat.ltb_spec n (S n)); [|lia]. cbn [andb].
          destruct (Nat.eqb_spec j j0) as [->|]; cbn [andb]; [|reflexivity].
          destruct (Nat.eqb_spec k k0) as [->|]; cbn [andb]; [|reflexivity].
          destruct (Nat.eqb_spec l l0) as [->|]; cbn [andb]; [|reflexivity].
          destruct (Nat.ltb_spec s ns); [|reflexivity]. rewrite from_modes by auto. reflexivity.
        * rewrite IHp. destruct (Nat.ltb_spec q n), (Nat.ltb_spec q (S n)); try lia; reflexivity.
      + destruct (f_down g); cbn [andb] in *; [|rewrite ?andb_false_r in *; exact IHm].
        destruct (Nat.eqb_spec q n) as [->|N].
        * rewrite accumulate_at, Im. cbn [ceqb]. destruct (Nat.ltb_spec n (S n)); [|lia]. cbn [andb].
          destruct (Nat.eqb_spec j j0) as [->|]; cbn [andb]; [|reflexivity].
          destruct (Nat.eqb_spec k k0) as [->|]; cbn [andb]; [|reflexivity].
          destruct (Nat.eqb_spec l l0) as [->|]; cbn [andb]; [|reflexivity].
          destruct (Nat.ltb_spec s ns); [|reflexivity]. rewrite from_modes by auto. reflexivity.
        * rewrite IHm. destruct (Nat.ltb_spec q n), (Nat.ltb_spec q (S n)); try lia; reflexivity. }
  specialize (K (f_derivs g) q j k l s). destruct (loop (f_derivs g) st _) as [pl ml]. cbn [r_pl r_ml fst snd] in *. exact K.
Qed.

(** The running maximum. *)
Definition ratios (i : nat) (t : component) (r : rad) (x : cell) : list dbl :=
  let '(j, k, l) := x in
  (if f_up g then [max_radiance_ratio (dadd (r_p r j k l 0) (contribution g (fun _ => c_p t) i j k l 0)) (contribution g (fun _ => c_p t) i j k l 0)] else []) ++
  (if f_down g then [max_radiance_ratio (dadd (r_m r j k l 0) (contribution g (fun _ => c_m t) i j k l 0)) (contribution g (fun _ => c_m t) i j k l 0)] else []).
Lemma body_e : forall i t x r, dgt (f_tol g) d_zero = true -> 0 < i ->
  r_e (body i t x r) = fold_left dmax (ratios i t r x) (r_e r).
Proof.
  intros i t [[j k] l] r T I. unfold body, azimuth. cbv zeta. destruct (loop (f_derivs g) _ _) as [pl ml]. cbn [r_e].
  rewrite T. destruct (Nat.ltb_spec 0 i); [|lia]. cbn [andb]. unfold ratios.
  destruct (Nat.ltb_spec 0 ns); [|lia].
  destruct (f_up g), (f_down g); rewrite ?accumulate_at, ?Nat.eqb_refl, ?from_modes by lia; cbn [andb];
    (destruct (Nat.ltb_spec 0 ns); [|lia]); reflexivity.
Qed.
Lemma body_e0 : forall i t x r, dgt (f_tol g) d_zero = false \/ i = 0 -> r_e (body i t x r) = r_e r.
Proof.
  intros i t [[j k] l] r T. unfold body, azimuth. cbv zeta. destruct (loop (f_derivs g) _ _) as [pl ml]. cbn [r_e].
  destruct T as [->| ->]; [reflexivity|]. cbn. now rewrite andb_false_r.
Qed.
Lemma ratios_other : forall i t x r y, ceqb y x = false -> ratios i t (body i t x r) y = ratios i t r y.
Proof.
  intros i t x r [[j k] l] E. unfold ratios. rewrite body_p, body_m, E. reflexivity.
Qed.
Lemma fold_e : forall i t L r, NoDup L -> dgt (f_tol g) d_zero = true -> 0 < i ->
  r_e (fold_left (fun r x => body i t x r) L r) = fold_left dmax (flat_map (ratios i t r) L) (r_e r).
Proof.
  intros i t. induction L as [|x L IH]; intros r ND T I; [reflexivity|]. inversion_clear ND as [|? ? N ND'].
  cbn [fold_left flat_map]. rewrite IH, fold_left_app by auto. rewrite body_e by auto. f_equal.
  assert (forall L', incl L' L -> flat_map (ratios i t (body i t x r)) L' = flat_map (ratios i t r) L') as K.
  { induction L' as [|y L' IHL]; intros S; [reflexivity|]. cbn. rewrite IHL by (intros z Z; apply S; right; auto). f_equal.
    apply ratios_other. destruct (ceqb y x) eqn:E; [|reflexivity]. apply ceqb_spec in E. subst y. exfalso. apply N, S. left. auto. }
  apply K. apply incl_refl.
Qed.
Lemma fold_e0 : forall i t L r, dgt (f_tol g) d_zero = false \/ i = 0 -> r_e (fold_left (fun r x => body i t x r) L r) = r_e r.
Proof. intros i t. induction L as [|x L IH]; intros r T; [reflexivity|]. cbn. rewrite IH by auto. now apply body_e0. Qed.

End Terms.

(* ---- maxima ---- *)
Lemma dmax_lt : forall l a t, num a = true -> (forall x, In x l -> num x = true) ->
  (dlt (fold_left dmax l a) t = true <-> dlt a t = true /\ forall x, In x l -> dlt x t = true).
Proof.
  induction l as [|x l IH]; intros a t A N.
  - cbn. intuition.
  - cbn [fold_left]. assert (num x = true) as X by (apply N; left; auto).
    assert (num (dmax a x) = true) as M by (unfold dmax; destruct (dgt a x); auto).
    rewrite IH by (auto; intros; apply N; right; auto).
    assert (dlt (dmax a x) t = true <-> dlt a t = true /\ dlt x t = true) as E.
    { unfold dmax. destruct (dgt a x) eqn:G.
      - split; [intros H; split; auto; eapply dlt_trans; [exact G|auto]|tauto].
      - split; [intros H; split; auto; eapply dle_dlt_trans; [apply (not_dgt_dle _ _ A X G)|auto]|tauto]. }
    rewrite E. split.
    + intros [[P Q] R]. split; auto. intros y [<-|Y]; auto.
    + intros [P Q]. repeat split; auto. apply Q. left; auto. intros; apply Q; right; auto.
Qed.
Lemma dabs_num : forall x, num x = true -> num (dabs x) = true /\ dle d_zero (dabs x) = true.
Proof. intros [|[]| |[]] H; try discriminate; split; reflexivity. Qed.
Lemma ratio_lt : forall I1 I2 t, dlt d_zero t = true -> (deq I1 d_zero = false -> ddiv I2 I1 <> S754_nan) ->
  num (max_radiance_ratio I1 I2) = true /\
  (dlt (max_radiance_ratio I1 I2) t = true <-> deq I1 d_zero = true \/ dlt (dabs (ddiv I2 I1)) t = true).
Proof.
  intros I1 I2 t T N. unfold max_radiance_ratio. destruct (deq I1 d_zero) eqn:E; cbn [negb].
  - split; [reflexivity|]. split; auto.
  - specialize (N eq_refl). assert (num (ddiv I2 I1) = true) as M by (destruct (ddiv I2 I1); auto; congruence).
    destruct (dabs_num _ M) as [A B]. unfold dmax.
    replace (dgt d_zero (dabs (ddiv I2 I1))) with false by (symmetry; apply dle_not_dlt; exact B).
    split; auto. split; [auto|intros [K|K]; [discriminate|auto]].
Qed.

(* ------------------------------------------------------------------------- *)
(** * The series                                                              *)
Section Run.
Variables (g : fcfg) (term : nat -> option component) (r0 : rad).
Hypothesis NS : 1 <= f_stokes g <= 4.
Definition dummy : component := {| c_p := fun _ _ => d_zero; c_m := fun _ _ => d_zero; c_pl := fun _ _ _ => d_zero; c_ml := fun _ _ _ => d_zero |}.
Definition tm (i : nat) : component := match term i with Some t => t | None => dummy end.
Fixpoint after (n : nat) : rad := match n with O => r0 | S i => add_term g i (tm i) (after i) end.
Definition conv (i : nat) : bool := (0 <? i) && dlt (r_e (after (S i))) (f_tol g).

Lemma series_spec : forall m i count c r,
  count = (match i with O => 0 | S i' => if conv i' then 1 else 0 end) ->
  series g term m i count (after i) = Some (c, r) ->
  r = after c /\ i <= c <= i + m /\ (forall x, i <= x < c -> term x <> None) /\
  (c < i + m -> 2 <= c /\ conv (c - 1) = true /\ conv (c - 2) = true) /\
  (forall x, i <= x -> 1 <= x -> conv x = true -> conv (x - 1) = true -> c <= S x).
Proof.
  induction m as [|m IH]; intros i count c r C E; cbn [series] in E.
  - injection E as <- <-. repeat split; auto; try lia; intros; lia.
  - destruct (term i) as [t|] eqn:TI; [|discriminate].
    assert (add_term g i t (after i) = after (S i)) as AE by (cbn; unfold tm; now rewrite TI).
    rewrite AE in E. fold (conv i) in E.
    destruct (2 <=? (if conv i then S count else 0)) eqn:L.
    + injection E as <- <-. apply Nat.leb_le in L. destruct (conv i) eqn:CI; [|lia].
      destruct i as [|i']; [unfold conv in CI; discriminate CI|]. destruct (conv i') eqn:CI'; [|lia].
      repeat split; try lia.
      * intros x X. assert (x = S i') as -> by lia. congruence.
      * now rewrite Nat.sub_succ, Nat.sub_0_r.
      * cbn. now rewrite Nat.sub_0_r.
    + apply Nat.leb_gt in L.
      edestruct (IH (S i) (if conv i then S count else 0) c r) as (A & B & T & D & F); [|exact E|].
      { destruct (conv i); [|reflexivity]. f_equal. lia. }
      repeat split; auto; try lia; try (apply D; lia).
      * intros x X. destruct (Nat.eq_dec x i) as [->|]; [congruence|apply T; lia].
      * intros x X X1 C1 C2. destruct (Nat.eq_dec x i) as [->|]; [|apply F; auto; lia].
        destruct i as [|i']; [lia|]. rewrite Nat.sub_succ, Nat.sub_0_r in C2. rewrite C1, C2 in *. subst count. lia.
Qed.
Lemma series_fails : forall m i count, (forall x, i <= x < i + m -> term x <> None) -> exists c r, series g term m i count (after i) = Some (c, r).
Proof.
  induction m as [|m IH]; intros i count H; cbn [series]; [eauto|].
  destruct (term i) as [t|] eqn:TI; [|exfalso; apply (H i); [lia|auto]].
  assert (add_term g i t (after i) = after (S i)) as -> by (cbn; unfold tm; now rewrite TI).
  destruct (2 <=? _); [eauto|]. apply IH. intros; apply H; lia.
Qed.

(** Contents of the arrays after [n] terms. *)
Lemma partial_S : forall w init n j k l s,
  partial g w init (S n) j k l s = dadd (partial g w init n j k l s) (contribution g w n j k l s).
Proof. intros. unfold partial. rewrite seq_S, map_app, fold_left_app. reflexivity. Qed.
Definition inside (j k l : nat) : bool := mem (j, k, l) (cells g).
Lemma after_p : forall n j k l s, r_p (after n) j k l s =
  if inside j k l && (f_up g && (s <? f_stokes g)) then partial g (fun i => c_p (tm i)) (r_p r0) n j k l s else r_p r0 j k l s.
Proof.
  induction n as [|n IH]; intros; [cbn; destruct (_ && _); reflexivity|]. cbn [after]. rewrite add_term_fold.
  rewrite (channel r_p (fun s => f_up g && (s <? f_stokes g)) (contribution g (fun _ => c_p (tm n)) n) (body g n (tm n))) by (auto using cells_nodup; intros; apply body_p; auto).
  change (r_p (clear_e (after n))) with (r_p (after n)). rewrite IH. fold (inside j k l).
  destruct (inside j k l && _); [now rewrite partial_S|reflexivity].
Qed.
Lemma after_m : forall n j k l s, r_m (after n) j k l s =
  if inside j k l && (f_down g && (s <? f_stokes g)) then partial g (fun i => c_m (tm i)) (r_m r0) n j k l s else r_m r0 j k l s.
Proof.
  induction n as [|n IH]; intros; [cbn; destruct (_ && _); reflexivity|]. cbn [after]. rewrite add_term_fold.
  rewrite (channel r_m (fun s => f_down g && (s <? f_stokes g)) (contribution g (fun _ => c_m (tm n)) n) (body g n (tm n))) by (auto using cells_nodup; intros; apply body_m; auto).
  change (r_m (clear_e (after n))) with (r_m (after n)). rewrite IH. fold (inside j k l).
  destruct (inside j k l && _); [now rewrite partial_S|reflexivity].
Qed.
Lemma after_pl : forall n q j k l s, r_pl (after n) q j k l s =
  if inside j k l && (f_up g && (q <? f_derivs g) && (s <? f_stokes g)) then partial g (fun i j => c_pl (tm i) j q) (r_pl r0 q) n j k l s else r_pl r0 q j k l s.
Proof.
  induction n as [|n IH]; intros; [cbn; destruct (_ && _); reflexivity|]. cbn [after]. rewrite add_term_fold.
  rewrite (channel (fun r => r_pl r q) (fun s => f_up g && (q <? f_derivs g) && (s <? f_stokes g)) (contribution g (fun _ j => c_pl (tm n) j q) n) (body g n (tm n)))
    by (auto using cells_nodup; intros; apply body_l; auto).
  change (r_pl (clear_e (after n))) with (r_pl (after n)). rewrite IH. fold (inside j k l).
  destruct (inside j k l && _); [now rewrite partial_S|reflexivity].
Qed.
Lemma after_ml : forall n q j k l s, r_ml (after n) q j k l s =
  if inside j k l && (f_down g && (q <? f_derivs g) && (s <? f_stokes g)) then partial g (fun i j => c_ml (tm i) j q) (r_ml r0 q) n j k l s else r_ml r0 q j k l s.
Proof.
  induction n as [|n IH]; intros; [cbn; destruct (_ && _); reflexivity|]. cbn [after]. rewrite add_term_fold.
  rewrite (channel (fun r => r_ml r q) (fun s => f_down g && (q <? f_derivs g) && (s <? f_stokes g)) (contribution g (fun _ j => c_ml (tm n) j q) n) (body g n (tm n)))
    by (auto using cells_nodup; intros; apply body_l; auto).
  change (r_ml (clear_e (after n))) with (r_ml (after n)). rewrite IH. fold (inside j k l).
  destruct (inside j k l && _); [now rewrite partial_S|reflexivity].
Qed.

Lemma conv_iff : forall i, dlt d_zero (f_tol g) = true -> 0 < i -> no_nan g tm (r_p r0) (r_m r0) i ->
  (conv i = true <-> small g tm (r_p r0) (r_m r0) i).
Proof.
  intros i T I NN. unfold conv. destruct (Nat.ltb_spec 0 i); [|lia]. cbn [andb after].
  rewrite add_term_fold, fold_e by (auto using cells_nodup). cbn [r_e clear_e].
  set (rr := clear_e (after i)).
  assert (forall j k l, output g j k l -> inside j k l = true) as OI by (intros; unfold inside; apply mem_in, cells_in; auto).
  assert (forall j k l, output g j k l -> f_up g = true ->
    num (max_radiance_ratio (dadd (r_p rr j k l 0) (contribution g (fun _ => c_p (tm i)) i j k l 0)) (contribution g (fun _ => c_p (tm i)) i j k l 0)) = true /\
    (dlt (max_radiance_ratio (dadd (r_p rr j k l 0) (contribution g (fun _ => c_p (tm i)) i j k l 0)) (contribution g (fun _ => c_p (tm i)) i j k l 0)) (f_tol g) = true
     <-> settled g (up tm) (r_p r0) i j k l)) as RP.
  { intros j k l O U. replace (r_p rr j k l 0) with (partial g (up tm) (r_p r0) i j k l 0).
    2:{ change (r_p rr) with (r_p (after i)). rewrite after_p, U, (OI _ _ _ O). destruct (Nat.ltb_spec 0 (f_stokes g)); [reflexivity|lia]. }
    change (contribution g (fun _ => c_p (tm i)) i j k l 0) with (contribution g (up tm) i j k l 0).
    rewrite <- partial_S. apply ratio_lt; auto. intros E K. destruct (NN j k l O) as [N _]. apply (N U). split; auto. }
  assert (forall j k l, output g j k l -> f_down g = true ->
    num (max_radiance_ratio (dadd (r_m rr j k l 0) (contribution g (fun _ => c_m (tm i)) i j k l 0)) (contribution g (fun _ => c_m (tm i)) i j k l 0)) = true /\
    (dlt (max_radiance_ratio (dadd (r_m rr j k l 0) (contribution g (fun _ => c_m (tm i)) i j k l 0)) (contribution g (fun _ => c_m (tm i)) i j k l 0)) (f_tol g) = true
     <-> settled g (down tm) (r_m r0) i j k l)) as RM.
  { intros j k l O U. replace (r_m rr j k l 0) with (partial g (down tm) (r_m r0) i j k l 0).
    2:{ change (r_m rr) with (r_m (after i)). rewrite after_m, U, (OI _ _ _ O). destruct (Nat.ltb_spec 0 (f_stokes g)); [reflexivity|lia]. }
    change (contribution g (fun _ => c_m (tm i)) i j k l 0) with (contribution g (down tm) i j k l 0).
    rewrite <- partial_S. apply ratio_lt; auto. intros E K. destruct (NN j k l O) as [_ N]. apply (N U). split; auto. }
  rewrite dmax_lt; [|reflexivity|].
  - unfold small. split.
    + intros [_ A] j k l O. split; intros U.
      * apply RP; auto. apply A. apply in_flat_map. exists (j, k, l). split; [now apply cells_in|]. unfold ratios. rewrite U. apply in_or_app. left. left. reflexivity.
      * apply RM; auto. apply A. apply in_flat_map. exists (j, k, l). split; [now apply cells_in|]. unfold ratios. rewrite U. apply in_or_app. right. left. reflexivity.
    + intros A. split; [auto|]. intros x X. apply in_flat_map in X as ([[j k] l] & C & X). apply cells_in in C.
      destruct (A j k l C) as [P M]. unfold ratios in X. apply in_app_or in X as [X|X].
      * destruct (f_up g) eqn:U; [|contradiction]. destruct X as [<-|[]]. apply RP; auto.
      * destruct (f_down g) eqn:U; [|contradiction]. destruct X as [<-|[]]. apply RM; auto.
  - intros x X. apply in_flat_map in X as ([[j k] l] & C & X). apply cells_in in C. unfold ratios in X. apply in_app_or in X as [X|X].
    + destruct (f_up g) eqn:U; [|contradiction]. destruct X as [<-|[]]. apply RP; auto.
    + destruct (f_down g) eqn:U; [|contradiction]. destruct X as [<-|[]]. apply RM; auto.
Qed.
Lemma conv_zero_tol : forall i, dgt (f_tol g) d_zero = false -> conv i = false.
Proof.
  intros i T. unfold conv. cbn [after]. rewrite add_term_fold, fold_e0 by auto. cbn [r_e clear_e].
  change (dlt d_zero (f_tol g)) with (dgt (f_tol g) d_zero). rewrite T. apply andb_false_r.
Qed.
End Run.
