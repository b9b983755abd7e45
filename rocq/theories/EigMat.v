(** Linear algebra over arrays: n + 1 vectors of n entries are dependent, so a matrix that kills nothing is nonsingular. *)
From Coq Require Import Reals Bool Arith Lia Lra Setoid Morphisms.
From Verif Require Import Base DeltaMSpec DeltaMProofs AddingModel AddingSpec AddingMat.
Open Scope R_scope.

Lemma total_last : forall m f, total (S m) f = total m f + f m.
Proof. reflexivity. Qed.
Definition skip (k j : nat) : nat := if Nat.ltb j k then j else S j.
Lemma total_skip : forall m k f, (k <= m)%nat -> total (S m) f = f k + total m (fun j => f (skip k j)).
Proof.
  induction m as [|m IH]; intros k f H.
  - replace k with 0%nat by lia. simpl. ring.
  - destruct (Nat.eq_dec k (S m)) as [E|E].
    + subst. change (total (S (S m)) f) with (total (S m) f + f (S m)).
      rewrite (total_ext (S m) (fun j => f (skip (S m) j)) f); [ring|].
      intros j Hj. unfold skip. destruct (Nat.ltb_spec j (S m)); [reflexivity|lia].
    + change (total (S (S m)) f) with (total (S m) f + f (S m)). rewrite (IH k) by lia.
      change (total (S m) (fun j => f (skip k j))) with (total m (fun j => f (skip k j)) + f (skip k m)).
      unfold skip at 3. destruct (Nat.ltb_spec m k); [lia|ring].
Qed.
Definition unskip (k : nat) (c : nat -> R) (x : R) (j : nat) : R :=
  if Nat.eqb j k then x else if Nat.ltb j k then c j else c (j - 1)%nat.
Lemma unskip_skip : forall k c x j, unskip k c x (skip k j) = c j.
Proof.
  intros. unfold unskip, skip. destruct (Nat.ltb_spec j k).
  - destruct (Nat.eqb_spec j k); [lia|]. destruct (Nat.ltb_spec j k); [reflexivity|lia].
  - destruct (Nat.eqb_spec (S j) k); [lia|]. destruct (Nat.ltb_spec (S j) k); [lia|]. f_equal. lia.
Qed.
Lemma unskip_here : forall k c x, unskip k c x k = x.
Proof. intros. unfold unskip. rewrite Nat.eqb_refl. reflexivity. Qed.

Definition dependent (n m : nat) (f : nat -> vec) : Prop :=
  exists c, (exists k, (k < m)%nat /\ c k <> 0) /\ forall i, (i < n)%nat -> total m (fun j => c j * f j i) = 0.

Lemma all_zero_or : forall m (g : nat -> R), (forall j, (j < m)%nat -> g j = 0) \/ (exists j, (j < m)%nat /\ g j <> 0).
Proof.
  induction m; intros g.
  - left. lia.
  - destruct (IHm g) as [H|(j & H & E)]; [|right; exists j; split; [lia|exact E]].
    destruct (Req_dec (g m) 0) as [E|E]; [|right; exists m; split; [lia|exact E]].
    left. intros j Hj. destruct (Nat.eq_dec j m); [subst; exact E|apply H; lia].
Qed.

Lemma too_many : forall n f, dependent n (S n) f.
Proof.
  induction n as [|n IH]; intros f.
  - exists (fun _ => 1). split; [exists 0%nat; split; [lia|lra]|]. intros; lia.
  - destruct (all_zero_or (S (S n)) (fun j => f j n)) as [Z|(k & Hk & NZ)].
    + destruct (IH f) as (c & (k & Hk & NZ) & H).
      exists (fun j => if Nat.ltb j (S n) then c j else 0). split.
      * exists k. split; [lia|]. destruct (Nat.ltb_spec k (S n)); [exact NZ|lia].
      * intros i Hi. destruct (Nat.eq_dec i n) as [->|E].
        -- apply total_zero. intros j Hj. rewrite Z by exact Hj. ring.
        -- change (total (S (S n)) (fun j => (if Nat.ltb j (S n) then c j else 0) * f j i))
             with (total (S n) (fun j => (if Nat.ltb j (S n) then c j else 0) * f j i) + (if Nat.ltb (S n) (S n) then c (S n) else 0) * f (S n) i).
           rewrite Nat.ltb_irrefl. rewrite (total_ext (S n) _ (fun j => c j * f j i)).
           ++ rewrite H by lia. ring.
           ++ intros j Hj. destruct (Nat.ltb_spec j (S n)); [reflexivity|lia].
    + set (q := fun j => f j n / f k n).
      destruct (IH (fun j i => f (skip k j) i - q (skip k j) * f k i)) as (c & (j0 & Hj0 & NZ0) & H).
      set (x := - total (S n) (fun j => c j * q (skip k j))).
      exists (unskip k c x). split.
      * exists (skip k j0). split; [unfold skip; destruct (Nat.ltb j0 k); lia|]. rewrite unskip_skip. exact NZ0.
      * intros i Hi. rewrite (total_skip (S n) k) by lia. rewrite unskip_here.
        rewrite (total_ext (S n) _ (fun j => c j * (f (skip k j) i - q (skip k j) * f k i) + f k i * (c j * q (skip k j)))).
        2: { intros j _. rewrite unskip_skip. ring. }
        rewrite total_plus, total_scale. unfold x.
        destruct (Nat.eq_dec i n) as [->|E].
        -- rewrite (total_zero (S n) (fun j => c j * (f (skip k j) n - q (skip k j) * f k n))); [ring|].
           intros j _. unfold q. field. exact NZ.
        -- rewrite H by lia. ring.
Qed.

Section Square.
Variable n : nat.
Notation "a =~ b" := (meq n a b) (at level 70).
Notation "a ** b" := (mmul n a b) (at level 40, left associativity).

Definition injective (a : mat) : Prop := forall v, (forall i, (i < n)%nat -> mv n a v i = 0) -> forall i, (i < n)%nat -> v i = 0.
Lemma onto : forall a, injective a -> forall y, exists v, forall i, (i < n)%nat -> mv n a v i = y i.
Proof.
  intros a INJ y.
  destruct (too_many n (fun j => if Nat.ltb j n then (fun i => a i j) else y)) as (c & (k & Hk & NZ) & H).
  assert (forall i, (i < n)%nat -> mv n a c i + c n * y i = 0) as E.
  { intros i Hi. rewrite <- (H i Hi). unfold mv.
    rewrite total_last. rewrite Nat.ltb_irrefl. f_equal. apply total_ext. intros j Hj. destruct (Nat.ltb_spec j n); [ring|lia]. }
  destruct (Req_dec (c n) 0) as [Z|Z].
  - exfalso. assert (forall i, (i < n)%nat -> c i = 0) as C.
    { apply INJ. intros i Hi. rewrite <- (E i Hi), Z. ring. }
    apply NZ. destruct (Nat.eq_dec k n) as [->|]; [exact Z|apply C; lia].
  - exists (fun j => - c j / c n). intros i Hi. specialize (E i Hi).
    unfold mv in *. rewrite (total_ext n _ (fun k => (- / c n) * (a i k * c k))).
    + rewrite total_scale. replace (total n (fun k => a i k * c k)) with (- (c n * y i)) by lra. field. exact Z.
    + intros j _. field. exact Z.
Qed.
Lemma columns : forall m (P : nat -> vec -> Prop), (forall j, (j < m)%nat -> exists v, P j v) -> exists b : mat, forall j, (j < m)%nat -> P j (fun i => b i j).
Proof.
  induction m; intros P H.
  - exists zmat. intros; lia.
  - destruct (IHm P) as (b & B). { intros j Hj. apply H. lia. }
    destruct (H m) as (v & V). { lia. }
    exists (fun i j => if Nat.eqb j m then v i else b i j). intros j Hj.
    destruct (Nat.eqb_spec j m) as [->|E].
    + exact V.
    + exact (B j ltac:(lia)).
Qed.
Lemma mmul_col : forall a b i j, (a ** b) i j = mv n a (fun k => b k j) i.
Proof. reflexivity. Qed.
Lemma mv_mul : forall a b v i, mv n a (mv n b v) i = mv n (a ** b) v i.
Proof.
  intros. pose proof (mmul_assoc n a b (col v) i i) as E. unfold col in E. exact E.
Qed.
Lemma mv_ident : forall v i, (i < n)%nat -> mv n ident v i = v i.
Proof. intros v i Hi. exact (mmul_1_l n (col v) i i Hi Hi). Qed.
Lemma right_inverse_left : forall a b, a ** b =~ ident -> b ** a =~ ident.
Proof.
  intros a b H.
  assert (injective b) as INJ.
  { intros v V i Hi. rewrite <- (mv_ident v i Hi).
    transitivity (mv n (a ** b) v i). { apply mv_proper; [symmetry; exact H|reflexivity|exact Hi]. }
    rewrite <- mv_mul. unfold mv at 1. apply total_zero. intros k Hk. rewrite V by exact Hk. ring. }
  intros i j Hi Hj. destruct (onto b INJ (fun k => ident k j)) as (v & V).
  rewrite mmul_col.
  assert (forall k, (k < n)%nat -> mv n a (fun k => ident k j) k = v k) as W.
  { intros k Hk. transitivity (mv n a (mv n b v) k).
    - apply mv_proper; [reflexivity| |exact Hk]. intros l Hl. symmetry. exact (V l Hl).
    - rewrite mv_mul. transitivity (mv n ident v k); [apply mv_proper; [exact H|reflexivity|exact Hk]|apply mv_ident; exact Hk]. }
  assert (forall k, (k < n)%nat -> mv n a (fun k => ident k j) k = a k j) as U.
  { intros k Hk. rewrite <- mmul_col. exact (mmul_1_r n a k j Hk Hj). }
  transitivity (mv n b v i).
  - unfold mv. apply total_ext. intros k Hk. f_equal. rewrite <- (W k Hk). rewrite <- (U k Hk). reflexivity.
  - apply V. exact Hi.
Qed.
Lemma injective_nonsingular : forall a, injective a -> nonsingular n a.
Proof.
  intros a INJ. destruct (columns n (fun j v => forall i, (i < n)%nat -> mv n a v i = ident i j)) as (b & B).
  { intros j _. exact (onto a INJ (fun i => ident i j)). }
  assert (a ** b =~ ident) as H. { intros i j Hi Hj. rewrite mmul_col. apply B; assumption. }
  exists b. split; [exact H|apply right_inverse_left; exact H].
Qed.
Lemma nonsingular_injective : forall a, nonsingular n a -> injective a.
Proof.
  intros a (b & _ & H) v V i Hi. rewrite <- (mv_ident v i Hi).
  transitivity (mv n (b ** a) v i). { apply mv_proper; [symmetry; exact H|reflexivity|exact Hi]. }
  rewrite <- mv_mul. unfold mv at 1. apply total_zero. intros k Hk. rewrite V by exact Hk. ring.
Qed.
Lemma factor_nonsingular : forall a b, nonsingular n (a ** b) -> nonsingular n a /\ nonsingular n b.
Proof.
  intros a b (p & H & K).
  assert (a ** (b ** p) =~ ident) as H1.
  { intros i j Hi Hj. rewrite mmul_assoc. apply H; assumption. }
  assert ((p ** a) ** b =~ ident) as H2.
  { intros i j Hi Hj. rewrite <- mmul_assoc. apply K; assumption. }
  split.
  - exists (b ** p). split; [exact H1|apply right_inverse_left; exact H1].
  - exists (p ** a). split; [|exact H2].
    assert (b ** (p ** a) =~ ident). { apply right_inverse_left. exact H2. } assumption.
Qed.
End Square.
