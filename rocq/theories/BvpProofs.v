(** The matrix and the right hand side of the boundary value solver, block by block. *)
From Coq Require Import Reals Bool Arith ZArith List Lia Lra.
From Verif Require Import Base DeltaMSpec DeltaMProofs AddingModel AddingSpec AddingMat RadianceModel EigModel EigMat EigCore EigProofs BvpModel BvpSpec.
Import ListNotations.
Open Scope R_scope.

Lemma total_blocks : forall n k f, total (k * n) f = total k (fun q => total n (fun i => f (q * n + i)%nat)).
Proof.
  intros n k f. induction k as [|k IH]; [reflexivity|]. rewrite total_last, <- IH. replace (S k * n)%nat with (k * n + n)%nat by lia. apply total_split.
Qed.
Lemma total_one : forall n p f, (p < n)%nat -> (forall q, (q < n)%nat -> q <> p -> f q = 0) -> total n f = f p.
Proof.
  intros n p f Hp Z. rewrite (total_ext n _ (fun q => if Nat.eqb p q then f q else 0)); [apply total_pick; exact Hp|].
  intros q Hq. destruct (Nat.eqb_spec p q); [reflexivity|]. apply Z; [exact Hq|congruence].
Qed.
Lemma block_index : forall n q i q' i', (i < n)%nat -> (i' < n)%nat -> (q * n + i = q' * n + i')%nat -> q = q' /\ i = i'.
Proof.
  intros n q i q' i' Hi Hi' E. assert (q = q') as ->; [|split; [reflexivity|lia]].
  destruct (lt_eq_lt_dec q q') as [[H|H]|H]; [|exact H|]; exfalso.
  - assert (S q * n <= q' * n)%nat by (apply Nat.mul_le_mono_r; lia). lia.
  - assert (S q' * n <= q * n)%nat by (apply Nat.mul_le_mono_r; lia). lia.
Qed.
Lemma block_ex : forall n k r, (0 < n)%nat -> (r < k * n)%nat -> exists q i, (q < k)%nat /\ (i < n)%nat /\ r = (q * n + i)%nat.
Proof.
  intros n k r Pos Hr. exists (r / n)%nat, (r mod n)%nat. refine (conj _ (conj _ _)).
  - apply Nat.div_lt_upper_bound; lia.
  - apply Nat.mod_upper_bound. lia.
  - rewrite Nat.mul_comm. apply Nat.div_mod. lia.
Qed.
Lemma loop_ind : forall A (P : nat -> A -> Prop) m f (a : A), P 0%nat a -> (forall k a, (k < m)%nat -> P k a -> exists a', f k a = Ok a' /\ P (S k) a') -> exists a', loop m f a = Ok a' /\ P m a'.
Proof.
  intros A P m f a P0 St. induction m as [|m IH]; [exists a; split; [reflexivity|exact P0]|].
  destruct IH as (b & E & Q); [intros k c Hk; apply St; lia|]. destruct (St m b (Nat.lt_succ_diag_r m) Q) as (c & F & Q'). exists c. cbn [loop]. rewrite E. cbn [bind]. tauto.
Qed.

Section Band.
Variable n : nat.
Hypothesis Pos : (0 < n)%nat.
Variable K : nat.                                     (* blocks *)
Notation N := (K * n)%nat.
Notation kd := (n_diags n).
Notation wd := (m_comp n).
Definition part (B : vec) (p : nat) : vec := fun j => B (p * n + j)%nat.
Definition blk (a : mat) (q p : nat) : mat := fun i j => unband kd kd a (q * n + i)%nat (p * n + j)%nat.
Lemma mv_blk : forall a B r, mv N (unband kd kd a) B r = total K (fun p => total n (fun j => unband kd kd a r (p * n + j)%nat * part B p j)).
Proof. intros. unfold mv. rewrite total_blocks. reflexivity. Qed.

Definition fits (c : call) : Prop := (c_i c < K)%nat /\ (c_j c < K)%nat /\ (c_i c <= c_j c + 2)%nat /\ (c_j c <= c_i c + 2)%nat.
Definition inside (ii jj q p : nat) : bool := (q =? ii)%nat && (p =? jj)%nat.
(** One element *)
Lemma put_ok : forall ii jj i j x a, (ii < K)%nat -> (jj < K)%nat -> (ii <= jj + 2)%nat -> (jj <= ii + 2)%nat -> (i < n)%nat -> (j < n)%nat ->
  exists a', put N wd (jj * n + j) (ii * n + (kd + kd + 1) - 1 + i) x a = Ok a' /\
    forall q p k l, (k < n)%nat -> (l < n)%nat -> blk a' q p k l = if inside ii jj q p && ((k =? i)%nat && (l =? j)%nat) then x else blk a q p k l.
Proof.
  intros ii jj i j x a Hi Hj H1 H2 Hii Hjj. unfold put.
  assert (jj * n + n <= K * n)%nat as A1. { assert (S jj * n <= K * n)%nat by (apply Nat.mul_le_mono_r; lia). lia. }
  assert (ii * n <= jj * n + 2 * n)%nat as A2. { assert (ii * n <= (jj + 2) * n)%nat by (apply Nat.mul_le_mono_r; lia). lia. }
  assert (jj * n <= ii * n + 2 * n)%nat as A3. { assert (jj * n <= (ii + 2) * n)%nat by (apply Nat.mul_le_mono_r; lia). lia. }
  assert (1 <= n)%nat as A4 by exact Pos. unfold wd, kd in *.
  replace ((jj * n + j <? K * n)%nat) with true by (symmetry; apply Nat.ltb_lt; lia).
  replace ((jj * n + j <=? ii * n + (3 * n - 1 + (3 * n - 1) + 1) - 1 + i)%nat) with true by (symmetry; apply Nat.leb_le; lia).
  replace ((ii * n + (3 * n - 1 + (3 * n - 1) + 1) - 1 + i - (jj * n + j) <? 3 * (3 * n - 1) + 1)%nat) with true by (symmetry; apply Nat.ltb_lt; lia).
  cbn [andb]. eexists. split; [reflexivity|]. intros q p k l Hk Hl. unfold blk, unband, inside.
  destruct (Nat.eqb_spec q ii) as [->|Q]; destruct (Nat.eqb_spec p jj) as [->|P]; cbn [andb].
  - destruct (Nat.eqb_spec k i) as [->|E1]; destruct (Nat.eqb_spec l j) as [->|E2]; cbn [andb].
    + replace ((jj * n + j <=? ii * n + i + n_diags n)%nat) with true by (symmetry; apply Nat.leb_le; unfold n_diags; lia).
      replace ((ii * n + i <=? jj * n + j + n_diags n)%nat) with true by (symmetry; apply Nat.leb_le; unfold n_diags; lia).
      rewrite Nat.eqb_refl. cbn [andb]. unfold n_diags.
      replace ((3 * n - 1 + (3 * n - 1) + (ii * n + i) - (jj * n + j) =? ii * n + (3 * n - 1 + (3 * n - 1) + 1) - 1 + i - (jj * n + j))%nat) with true by (symmetry; apply Nat.eqb_eq; lia). reflexivity.
    + destruct (Nat.eqb_spec (jj * n + l)%nat (jj * n + j)%nat); [lia|]. reflexivity.
    + rewrite Nat.eqb_refl. cbn [andb]. destruct ((jj * n + j <=? ii * n + k + n_diags n)%nat && (ii * n + k <=? jj * n + j + n_diags n)%nat) eqn:D; [|reflexivity].
      apply andb_true_iff in D. destruct D as (D1 & D2). apply Nat.leb_le in D1, D2. unfold n_diags in *.
      match goal with |- (if (?u =? ?v)%nat then _ else _) = _ => destruct (Nat.eqb_spec u v); [lia|reflexivity] end.
    + destruct (Nat.eqb_spec (jj * n + l)%nat (jj * n + j)%nat); [lia|]. reflexivity.
  - destruct (Nat.eqb_spec (p * n + l)%nat (jj * n + j)%nat) as [E|E]; [destruct (block_index n _ _ _ _ Hl Hjj E); contradiction|]. reflexivity.
  - destruct ((jj * n + l <=? q * n + k + n_diags n)%nat && (q * n + k <=? jj * n + l + n_diags n)%nat) eqn:D; [|reflexivity].
    destruct (Nat.eqb_spec (jj * n + l)%nat (jj * n + j)%nat) as [E|E]; [|reflexivity]. cbn [andb].
    apply andb_true_iff in D. destruct D as (D1 & D2). apply Nat.leb_le in D1, D2. unfold n_diags in *.
    match goal with |- (if (?u =? ?v)%nat then _ else _) = _ => destruct (Nat.eqb_spec u v) as [F|F]; [|reflexivity] end.
    assert (q * n + k = ii * n + i)%nat as G by lia. destruct (block_index n _ _ _ _ Hk Hii G); contradiction.
  - destruct (Nat.eqb_spec (p * n + l)%nat (jj * n + j)%nat) as [E|E]; [destruct (block_index n _ _ _ _ Hl Hjj E); contradiction|]. reflexivity.
Qed.
(** One block *)
Lemma insert_ok : forall c a, fits c -> exists a', insert n N wd kd kd c a = Ok a' /\
  forall q p k l, (k < n)%nat -> (l < n)%nat -> blk a' q p k l = if inside (c_i c) (c_j c) q p then c_value c k l else blk a q p k l.
Proof.
  intros c a (F1 & F2 & F3 & F4). unfold insert.
  destruct (loop_ind _ (fun i b => forall q p k l, (k < n)%nat -> (l < n)%nat -> blk b q p k l = if inside (c_i c) (c_j c) q p && (k <? i)%nat then c_value c k l else blk a q p k l)
    n (fun i => loop n (fun j => put N wd (c_j c * n + j) (c_i c * n + (kd + kd + 1) - 1 + i) (c_value c i j))) a) as (a' & E & H).
  - intros q p k l _ _. replace (k <? 0)%nat with false by reflexivity. rewrite andb_false_r. reflexivity.
  - intros i b Hi IH.
    destruct (loop_ind _ (fun j b => forall q p k l, (k < n)%nat -> (l < n)%nat -> blk b q p k l = if inside (c_i c) (c_j c) q p && ((k <? i)%nat || (k =? i)%nat && (l <? j)%nat) then c_value c k l else blk a q p k l)
      n (fun j => put N wd (c_j c * n + j) (c_i c * n + (kd + kd + 1) - 1 + i) (c_value c i j)) b) as (b' & E & H).
    + intros q p k l Hk Hl. replace (l <? 0)%nat with false by reflexivity. rewrite andb_false_r, orb_false_r. apply IH; assumption.
    + intros j d Hj IHj. destruct (put_ok (c_i c) (c_j c) i j (c_value c i j) d F1 F2 F3 F4 Hi Hj) as (d' & E & H). exists d'. split; [exact E|].
      intros q p k l Hk Hl. rewrite H, IHj by assumption. destruct (inside (c_i c) (c_j c) q p); cbn [andb]; [|reflexivity].
      destruct (Nat.eqb_spec k i) as [->|E1]; destruct (Nat.eqb_spec l j) as [->|E2]; cbn [andb orb].
      * replace (j <? S j)%nat with true by (symmetry; apply Nat.ltb_lt; lia). rewrite orb_true_r. reflexivity.
      * replace (l <? S j)%nat with (l <? j)%nat; [reflexivity|]. destruct (Nat.ltb_spec l j); destruct (Nat.ltb_spec l (S j)); try reflexivity; lia.
      * reflexivity.
      * reflexivity.
    + exists b'. split; [exact E|]. intros q p k l Hk Hl. rewrite H by assumption. destruct (inside (c_i c) (c_j c) q p); cbn [andb]; [|reflexivity].
      replace (l <? n)%nat with true by (symmetry; apply Nat.ltb_lt; exact Hl). rewrite andb_true_r.
      replace (k <? S i)%nat with ((k <? i)%nat || (k =? i)%nat); [reflexivity|].
      destruct (Nat.ltb_spec k i); destruct (Nat.eqb_spec k i); destruct (Nat.ltb_spec k (S i)); try reflexivity; lia.
  - exists a'. split; [exact E|]. intros q p k l Hk Hl. rewrite H by assumption. replace (k <? n)%nat with true by (symmetry; apply Nat.ltb_lt; exact Hk). rewrite andb_true_r. reflexivity.
Qed.
(** A sequence of blocks, from row to row and to the right in each row *)
Definition empty_from (ii jj : nat) (a : mat) : Prop := forall q p i j, (ii < q \/ q = ii /\ jj <= p)%nat -> (i < n)%nat -> (j < n)%nat -> blk a q p i j = 0.
Definition after (ii jj : nat) (c : call) : Prop := (ii < c_i c \/ c_i c = ii /\ jj <= c_j c)%nat.
Fixpoint ordered (l : list call) (ii jj : nat) : Prop :=
  match l with [] => True | c :: l => after ii jj c /\ fits c /\ ordered l (c_i c) (S (c_j c)) end.
Fixpoint sums (l : list call) (B : vec) (q i : nat) : R :=
  match l with [] => 0 | c :: l => (if (c_i c =? q)%nat then mv n (c_value c) (part B (c_j c)) i else 0) + sums l B q i end.
Lemma sums_app : forall l l' B q i, sums (l ++ l') B q i = sums l B q i + sums l' B q i.
Proof. intros l l' B q i. induction l as [|c l IH]; [cbn [sums app]; ring|]. cbn [sums app]. rewrite IH. ring. Qed.
Lemma insert_mv : forall c a a' B q i, (q < K)%nat -> (i < n)%nat -> fits c -> (forall k l, (k < n)%nat -> (l < n)%nat -> blk a (c_i c) (c_j c) k l = 0) ->
  (forall q p k l, (k < n)%nat -> (l < n)%nat -> blk a' q p k l = if inside (c_i c) (c_j c) q p then c_value c k l else blk a q p k l) ->
  mv N (unband kd kd a') B (q * n + i)%nat = mv N (unband kd kd a) B (q * n + i)%nat + (if (c_i c =? q)%nat then mv n (c_value c) (part B (c_j c)) i else 0).
Proof.
  intros c a a' B q i Hq Hi (F1 & F2 & F3 & F4) Z H. rewrite !mv_blk.
  destruct (Nat.eqb_spec (c_i c) q) as [E|E].
  - apply Rplus_eq_reg_l with (- total K (fun p => total n (fun j => unband kd kd a (q * n + i)%nat (p * n + j)%nat * part B p j))).
    rewrite <- Rplus_assoc, Rplus_opp_l, Rplus_0_l. rewrite (Rplus_comm (- _)). change (?u + - ?v) with (u - v). rewrite <- total_minus.
    rewrite (total_one K (c_j c)); [|exact F2|].
    + rewrite <- total_minus. unfold mv. apply total_ext. intros j Hj.
      pose proof (H q (c_j c) i j Hi Hj) as H1. pose proof (Z i j Hi Hj) as Z1. unfold blk in H1, Z1. subst q. unfold inside in H1. rewrite !Nat.eqb_refl in H1. cbn [andb] in H1. rewrite H1, Z1. ring.
    + intros p Hp Np. rewrite <- total_minus. apply total_zero. intros j Hj. pose proof (H q p i j Hi Hj) as H1. unfold blk in H1. unfold inside in H1.
      destruct (Nat.eqb_spec p (c_j c)); [contradiction|]. rewrite andb_false_r in H1. rewrite H1. ring.
  - rewrite Rplus_0_r. apply total_ext. intros p Hp. apply total_ext. intros j Hj. pose proof (H q p i j Hi Hj) as H1. unfold blk in H1. unfold inside in H1.
    destruct (Nat.eqb_spec q (c_i c)); [congruence|]. cbn [andb] in H1. rewrite H1. reflexivity.
Qed.
Lemma run_ok : forall l ii jj a, ordered l ii jj -> empty_from ii jj a -> exists a', run n N wd kd kd l a = Ok a' /\
  forall B q i, (q < K)%nat -> (i < n)%nat -> mv N (unband kd kd a') B (q * n + i)%nat = mv N (unband kd kd a) B (q * n + i)%nat + sums l B q i.
Proof.
  induction l as [|c l IH]; intros ii jj a O Em.
  - exists a. split; [reflexivity|]. intros. cbn [sums]. ring.
  - destruct O as (Af & Fi & O). destruct (insert_ok c a Fi) as (b & E & H).
    destruct (IH (c_i c) (S (c_j c)) b O) as (a' & E' & H').
    + intros q p i j Q Hi Hj. rewrite H by assumption. unfold inside. destruct (Nat.eqb_spec q (c_i c)); destruct (Nat.eqb_spec p (c_j c)); cbn [andb]; try lia; apply Em; try assumption; unfold after in Af; lia.
    + exists a'. cbn [run]. rewrite E. cbn [bind]. split; [exact E'|]. intros B q i Hq Hi. rewrite H' by assumption. cbn [sums].
      rewrite (insert_mv c a b B q i Hq Hi Fi) by (exact H || (intros; apply Em; [unfold after in Af; lia|assumption|assumption])). ring.
Qed.
Lemma empty_zero : empty_from 0 0 zmat.
Proof. intros q p i j _ _ _. unfold blk, unband, zmat. destruct (_ && _); reflexivity. Qed.
Lemma mv_unzero : forall B r, mv N (unband kd kd zmat) B r = 0.
Proof. intros. unfold mv. apply total_zero. intros k _. unfold unband, zmat. destruct (_ && _); ring. Qed.
End Band.

Section System.
Variable n : nat.
Hypothesis Pos : (0 < n)%nat.
Variable m : nat.
Variable ws : nat -> waves.
Variable surf : option mat.
Notation K := (2 * S m)%nat.
Lemma n_comp_is : n_comp n m = (K * n)%nat.
Proof using Pos. unfold n_comp. lia. Qed.
Notation Rsf := (reflector surf).

Lemma calls_ordered : ordered K (calls n m ws surf) 0 0.
Proof using Pos.
  assert (forall k s rest ii jj, (s + k <= m)%nat -> (ii < 2 * s + 1)%nat -> (forall ii jj, (ii < 2 * (s + k) + 1)%nat -> ordered K rest ii jj) -> ordered K (flat_map (middle_rows ws) (seq s k) ++ rest) ii jj) as M.
  { induction k as [|k IH]; intros s rest ii jj Hs Hi Hr.
    - apply Hr. lia.
    - cbn [seq flat_map]. rewrite <- app_assoc. unfold middle_rows at 1, call1, call2. cbn [app ordered c_i c_j]. unfold after, fits. cbn [c_i c_j].
      refine (conj _ (conj _ (conj _ (conj _ (conj _ (conj _ (conj _ (conj _ (conj _ (conj _ (conj _ (conj _ (conj _ (conj _ (conj _ (conj _ _)))))))))))))))); try lia.
      apply IH; try lia. intros. apply Hr. lia. }
  unfold calls, first_rows, call1, call2. cbn [app ordered c_i c_j]. unfold after, fits. cbn [c_i c_j].
  refine (conj _ (conj _ (conj _ (conj _ _)))); try lia.
  apply M; try lia. intros ii jj Hi. unfold last_rows, call1. cbn [ordered]. unfold after, fits. cbn [c_i c_j]. refine (conj _ (conj _ (conj _ (conj _ I)))); lia.
Qed.
(** The light of the modes [B] at the top and at the bottom of layer k *)
Definition Up0 (B : vec) (k : nat) : vec := fun i => mv n (b_Xp (ws k)) (part n B (2 * k)) i + mv n (b_Xm (ws k)) (fun j => lam (ws k) j * part n B (2 * k + 1) j) i.
Definition Dn0 (B : vec) (k : nat) : vec := fun i => - mv n (b_Xm (ws k)) (part n B (2 * k)) i - mv n (b_Xp (ws k)) (fun j => lam (ws k) j * part n B (2 * k + 1) j) i.
Definition UpL (B : vec) (k : nat) : vec := fun i => mv n (b_Xp (ws k)) (fun j => lam (ws k) j * part n B (2 * k) j) i + mv n (b_Xm (ws k)) (part n B (2 * k + 1)) i.
Definition DnL (B : vec) (k : nat) : vec := fun i => - mv n (b_Xm (ws k)) (fun j => lam (ws k) j * part n B (2 * k) j) i - mv n (b_Xp (ws k)) (part n B (2 * k + 1)) i.
Lemma value1 : forall ii jj al x v i, mv n (c_value (call1 ii jj al x)) v i = al * mv n x v i.
Proof using Pos. intros. unfold mv. rewrite <- total_scale. apply total_ext. intros. cbn [c_value call1 c_diag c_alpha c_mat]. unfold c_value. cbn. ring. Qed.
Lemma value2 : forall ii jj al d x v i, mv n (c_value (call2 ii jj al d x)) v i = al * mv n x (fun j => d j * v j) i.
Proof using Pos. intros. unfold mv. rewrite <- total_scale. apply total_ext. intros. unfold c_value. cbn. ring. Qed.
Lemma sums_middle : forall k B q i, sums n (middle_rows ws k) B q i =
  (if (2 * k + 1 =? q)%nat then UpL B k i - Up0 B (S k) i else 0) + (if (2 * k + 2 =? q)%nat then DnL B k i - Dn0 B (S k) i else 0).
Proof using Pos.
  intros k B q i. unfold middle_rows. cbn [sums]. rewrite !value1, !value2. unfold call1, call2. cbn [c_i c_j].
  replace (2 * k + 1 + 1)%nat with (2 * k + 2)%nat by lia. unfold UpL, Up0, DnL, Dn0. replace (2 * S k)%nat with (2 * k + 2)%nat by lia. replace (2 * k + 2 + 1)%nat with (2 * k + 3)%nat by lia.
  destruct (2 * k + 1 =? q)%nat; destruct (2 * k + 2 =? q)%nat; ring.
Qed.
Lemma sums_middles : forall k s B q i, sums n (flat_map (middle_rows ws) (seq s k)) B q i =
  total k (fun j => (if (2 * (s + j) + 1 =? q)%nat then UpL B (s + j) i - Up0 B (S (s + j)) i else 0) + (if (2 * (s + j) + 2 =? q)%nat then DnL B (s + j) i - Dn0 B (S (s + j)) i else 0)).
Proof using Pos.
  induction k as [|k IH]; intros s B q i; [reflexivity|]. rewrite seq_S, flat_map_app, sums_app, IH, total_last. cbn [flat_map]. rewrite app_nil_r, sums_middle. reflexivity.
Qed.
Definition rows (B : vec) (q i : nat) : R := sums n (calls n m ws surf) B q i.
Lemma rows_is : forall B q i, rows B q i = (if (0 =? q)%nat then Dn0 B 0 i else 0) +
  (total m (fun j => (if (2 * j + 1 =? q)%nat then UpL B j i - Up0 B (S j) i else 0) + (if (2 * j + 2 =? q)%nat then DnL B j i - Dn0 B (S j) i else 0)) +
   (if (2 * m + 1 =? q)%nat then UpL B m i - mv n Rsf (DnL B m) i else 0)).
Proof using Pos.
  intros B q i. unfold rows, calls. rewrite !sums_app, sums_middles. f_equal; [|f_equal].
  - unfold first_rows. cbn [sums]. rewrite value1, value2. unfold call1, call2. cbn [c_i c_j]. destruct (0 =? q)%nat; [|ring]. unfold Dn0. replace (2 * 0)%nat with 0%nat by lia. replace (0 + 1)%nat with 1%nat by lia. ring.
  - unfold last_rows. cbn [sums]. rewrite !value1. unfold call1. cbn [c_i c_j]. replace (m * 2 + 1)%nat with (2 * m + 1)%nat by lia. replace (m * 2)%nat with (2 * m)%nat by lia.
    destruct (2 * m + 1 =? q)%nat; [|ring]. rewrite Rplus_0_r, !Rmult_1_l.
    assert (forall (y : mat) u, mv n (fun j k => total n (fun l => Rsf j l * y l k)) u i = mv n Rsf (mv n y u) i) as A by (intros; symmetry; apply mv_mul).
    unfold DnL. rewrite mv_minus, mv_opp, <- !A. unfold UpL.
    transitivity (mv n (b_Xp (ws m)) (fun j => lam (ws m) j * part n B (2 * m) j) i + mv n (fun j k => total n (fun l => Rsf j l * b_Xm (ws m) l k)) (fun j => lam (ws m) j * part n B (2 * m) j) i +
      (mv n (b_Xm (ws m)) (part n B (2 * m + 1)) i + mv n (fun j k => total n (fun l => Rsf j l * b_Xp (ws m) l k)) (part n B (2 * m + 1)) i)); [|ring].
    unfold mv. rewrite <- !total_plus. apply total_ext; intros k Hk; unfold last_a, last_b, reflector; destruct surf as [Rs|].
    + rewrite (total_ext n (fun l => Rs i l * - b_Xm (ws m) l k) (fun l => (- (1)) * (Rs i l * b_Xm (ws m) l k))), (total_ext n (fun l => Rs i l * - b_Xp (ws m) l k) (fun l => (- (1)) * (Rs i l * b_Xp (ws m) l k))) by (intros; ring). rewrite !total_scale. ring.
    + rewrite (total_zero n (fun l => zmat i l * b_Xm (ws m) l k)), (total_zero n (fun l => zmat i l * b_Xp (ws m) l k)) by (intros; unfold zmat; ring). ring.
Qed.
Lemma only_odd : forall (f g : nat -> R) k, (k < m)%nat -> total m (fun j => (if (2 * j + 1 =? 2 * k + 1)%nat then f j else 0) + (if (2 * j + 2 =? 2 * k + 1)%nat then g j else 0)) = f k.
Proof using Pos.
  intros f g k Hk. rewrite (total_one m k); [|exact Hk|].
  - rewrite Nat.eqb_refl. destruct (Nat.eqb_spec (2 * k + 2)%nat (2 * k + 1)%nat); [lia|ring].
  - intros q _ Nq. destruct (Nat.eqb_spec (2 * q + 1)%nat (2 * k + 1)%nat); [lia|]. destruct (Nat.eqb_spec (2 * q + 2)%nat (2 * k + 1)%nat); [lia|ring].
Qed.
Lemma only_even : forall (f g : nat -> R) k, (k < m)%nat -> total m (fun j => (if (2 * j + 1 =? 2 * k + 2)%nat then f j else 0) + (if (2 * j + 2 =? 2 * k + 2)%nat then g j else 0)) = g k.
Proof using Pos.
  intros f g k Hk. rewrite (total_one m k); [|exact Hk|].
  - rewrite Nat.eqb_refl. destruct (Nat.eqb_spec (2 * k + 1)%nat (2 * k + 2)%nat); [lia|ring].
  - intros q _ Nq. destruct (Nat.eqb_spec (2 * q + 1)%nat (2 * k + 2)%nat); [lia|]. destruct (Nat.eqb_spec (2 * q + 2)%nat (2 * k + 2)%nat); [lia|ring].
Qed.
Lemma only_none : forall (f g : nat -> R) q, q = 0%nat \/ q = (2 * m + 1)%nat -> total m (fun j => (if (2 * j + 1 =? q)%nat then f j else 0) + (if (2 * j + 2 =? q)%nat then g j else 0)) = 0.
Proof using Pos.
  intros f g q Q. apply total_zero. intros j Hj. destruct (Nat.eqb_spec (2 * j + 1)%nat q); [lia|]. destruct (Nat.eqb_spec (2 * j + 2)%nat q); [lia|ring].
Qed.
Lemma eqb_no : forall a b, a <> b -> (a =? b)%nat = false. Proof using Pos. intros. apply Nat.eqb_neq. assumption. Qed.
Lemma row_first : forall B i, rows B 0 i = Dn0 B 0 i.
Proof using Pos. intros. rewrite rows_is, only_none by (assumption || (left; reflexivity) || (right; reflexivity)). rewrite (eqb_no (2 * m + 1) 0) by lia. rewrite Nat.eqb_refl. ring. Qed.
Lemma row_up : forall B k i, (k < m)%nat -> rows B (2 * k + 1) i = UpL B k i - Up0 B (S k) i.
Proof using Pos. intros B k i Hk. rewrite rows_is, (only_odd (fun j => UpL B j i - Up0 B (S j) i) (fun j => DnL B j i - Dn0 B (S j) i) k Hk). rewrite (eqb_no 0 (2 * k + 1)), (eqb_no (2 * m + 1) (2 * k + 1)) by lia. ring. Qed.
Lemma row_dn : forall B k i, (k < m)%nat -> rows B (2 * k + 2) i = DnL B k i - Dn0 B (S k) i.
Proof using Pos. intros B k i Hk. rewrite rows_is, (only_even (fun j => UpL B j i - Up0 B (S j) i) (fun j => DnL B j i - Dn0 B (S j) i) k Hk). rewrite (eqb_no 0 (2 * k + 2)), (eqb_no (2 * m + 1) (2 * k + 2)) by lia. ring. Qed.
Lemma row_last : forall B i, rows B (2 * m + 1) i = UpL B m i - mv n Rsf (DnL B m) i.
Proof using Pos. intros. rewrite rows_is, only_none by (assumption || (left; reflexivity) || (right; reflexivity)). rewrite (eqb_no 0 (2 * m + 1)) by lia. rewrite Nat.eqb_refl. ring. Qed.
(** The matrix is assembled without leaving the array; its action *)
Lemma assembled : exists a, assemble n m ws surf = Ok a /\ forall B q i, (q < K)%nat -> (i < n)%nat -> mv (n_comp n m) (unband (n_diags n) (n_diags n) a) B (q * n + i)%nat = rows B q i.
Proof using Pos.
  destruct (run_ok n Pos K (calls n m ws surf) 0 0 zmat calls_ordered (empty_zero n)) as (a & E & H). exists a. unfold assemble. rewrite n_comp_is. split; [exact E|].
  intros B q i Hq Hi. rewrite H, mv_unzero by assumption. unfold rows. ring.
Qed.
(** Every row is one of these. *)
Lemma row_cases : forall q, (q < K)%nat -> q = 0%nat \/ (exists k, (k < m)%nat /\ (q = 2 * k + 1 \/ q = 2 * k + 2)%nat) \/ q = (2 * m + 1)%nat.
Proof using Pos.
  intros q Hq. destruct (Nat.eq_dec q 0) as [->|]; [left; reflexivity|]. destruct (Nat.eq_dec q (2 * m + 1)) as [->|]; [right; right; reflexivity|]. right. left.
  destruct (Nat.Even_or_Odd q) as [(k & ->)|(k & ->)].
  - exists (k - 1)%nat. split; [lia|]. right. lia.
  - exists k. split; [lia|]. left. lia.
Qed.

(** The right hand side *)
Variables (solar thermal : bool).
Variables (top bot : vec).
Definition P0p (k : nat) : vec := fun i => (if solar then b_Fp (ws k) i else 0) + (if thermal then b_0p (ws k) i else 0).
Definition P0m (k : nat) : vec := fun i => (if solar then b_Fm (ws k) i else 0) + (if thermal then b_0m (ws k) i else 0).
Definition P1p (k : nat) : vec := fun i => (if solar then b_Fp (ws k) i * b_atran (ws k) else 0) + (if thermal then b_1p (ws k) i else 0).
Definition P1m (k : nat) : vec := fun i => (if solar then b_Fm (ws k) i * b_atran (ws k) else 0) + (if thermal then b_1m (ws k) i else 0).
Lemma add_at_is : forall p v B q i, (i < n)%nat -> add_at n p v B (q * n + i)%nat = (if (p =? q)%nat then v i else 0) + B (q * n + i)%nat.
Proof using Pos.
  intros p v B q i Hi. unfold add_at. destruct (Nat.eqb_spec p q) as [->|E].
  - replace (q * n <=? q * n + i)%nat with true by (symmetry; apply Nat.leb_le; lia). replace (q * n + i <? q * n + n)%nat with true by (symmetry; apply Nat.ltb_lt; lia). cbn [andb].
    replace (q * n + i - q * n)%nat with i by lia. ring.
  - destruct ((p * n <=? q * n + i)%nat && (q * n + i <? p * n + n)%nat) eqn:D; [|ring].
    apply andb_true_iff in D. destruct D as (D1 & D2). apply Nat.leb_le in D1. apply Nat.ltb_lt in D2. exfalso. apply E.
    apply (block_index n p (q * n + i - p * n) q i); lia.
Qed.
Lemma fold_is : forall (f g : nat -> vec) k s B q i, (i < n)%nat ->
  fold_left (fun B i => let B := add_at n (2 * i + 1) (f i) B in add_at n (2 * i + 2) (g i) B) (seq s k) B (q * n + i)%nat =
  total k (fun j => (if (2 * (s + j) + 1 =? q)%nat then f (s + j)%nat i else 0) + (if (2 * (s + j) + 2 =? q)%nat then g (s + j)%nat i else 0)) + B (q * n + i)%nat.
Proof using Pos.
  intros f g. induction k as [|k IH]; intros s B q i Hi; [cbn [seq fold_left total]; ring|].
  rewrite seq_S, fold_left_app, total_last. cbn [fold_left]. cbv zeta. rewrite !add_at_is by exact Hi.
  pose proof (IH s B q i Hi) as H. cbv zeta in H. rewrite H. ring.
Qed.
Lemma rhs_solar_is : forall B q i, (i < n)%nat -> rhs_solar n m ws surf B (q * n + i)%nat = (if (0 =? q)%nat then - b_Fm (ws 0%nat) i else 0) +
  total m (fun j => (if (2 * j + 1 =? q)%nat then b_Fp (ws (S j)) i - b_Fp (ws j) i * b_atran (ws j) else 0) + (if (2 * j + 2 =? q)%nat then b_Fm (ws (S j)) i - b_Fm (ws j) i * b_atran (ws j) else 0)) +
  (if (2 * m + 1 =? q)%nat then - b_Fp (ws m) i * b_atran (ws m) + match surf with None => 0 | Some Rs => total n (fun k => Rs i k * b_Fm (ws m) k) * b_atran (ws m) end else 0) + B (q * n + i)%nat.
Proof using Pos.
  intros B q i Hi. unfold rhs_solar. cbv zeta. rewrite add_at_is by exact Hi.
  pose proof (fold_is (fun i j => b_Fp (ws (S i)) j - b_Fp (ws i) j * b_atran (ws i)) (fun i j => b_Fm (ws (S i)) j - b_Fm (ws i) j * b_atran (ws i)) m 0 (add_at n 0 (fun i => - b_Fm (ws 0%nat) i) B) q i Hi) as F.
  cbv zeta in F. rewrite F, add_at_is by exact Hi. cbn [Nat.add]. ring.
Qed.
Lemma rhs_thermal_is : forall B q i, (i < n)%nat -> rhs_thermal n m ws surf B (q * n + i)%nat = (if (0 =? q)%nat then - b_0m (ws 0%nat) i else 0) +
  total m (fun j => (if (2 * j + 1 =? q)%nat then b_0p (ws (S j)) i - b_1p (ws j) i else 0) + (if (2 * j + 2 =? q)%nat then b_0m (ws (S j)) i - b_1m (ws j) i else 0)) +
  (if (2 * m + 1 =? q)%nat then - b_1p (ws m) i + match surf with None => 0 | Some Rs => total n (fun k => Rs i k * b_1m (ws m) k) end else 0) + B (q * n + i)%nat.
Proof using Pos.
  intros B q i Hi. unfold rhs_thermal. cbv zeta. rewrite add_at_is by exact Hi.
  pose proof (fold_is (fun i j => b_0p (ws (S i)) j - b_1p (ws i) j) (fun i j => b_0m (ws (S i)) j - b_1m (ws i) j) m 0 (add_at n 0 (fun i => - b_0m (ws 0%nat) i) B) q i Hi) as F.
  cbv zeta in F. rewrite F, add_at_is by exact Hi. cbn [Nat.add]. ring.
Qed.
Lemma rhs_light_is : forall q i, (i < n)%nat -> rhs_light n m top bot (q * n + i)%nat = (if (0 =? q)%nat then top i else 0) + (if (2 * m + 1 =? q)%nat then bot i else 0).
Proof using Pos. intros q i Hi. unfold rhs_light. rewrite !add_at_is by exact Hi. unfold zvec. ring. Qed.
Definition right (q i : nat) : R := rhs n m ws surf solar thermal top bot (q * n + i)%nat.
Lemma right_is : forall q i, (i < n)%nat -> right q i = (if (0 =? q)%nat then top i - P0m 0 i else 0) +
  (total m (fun j => (if (2 * j + 1 =? q)%nat then P0p (S j) i - P1p j i else 0) + (if (2 * j + 2 =? q)%nat then P0m (S j) i - P1m j i else 0)) +
   (if (2 * m + 1 =? q)%nat then bot i - P1p m i + mv n Rsf (P1m m) i else 0)).
Proof using Pos.
  intros q i Hi. unfold right, rhs.
  set (T1 := fun j => (if (2 * j + 1 =? q)%nat then b_Fp (ws (S j)) i - b_Fp (ws j) i * b_atran (ws j) else 0) + (if (2 * j + 2 =? q)%nat then b_Fm (ws (S j)) i - b_Fm (ws j) i * b_atran (ws j) else 0)).
  set (T2 := fun j => (if (2 * j + 1 =? q)%nat then b_0p (ws (S j)) i - b_1p (ws j) i else 0) + (if (2 * j + 2 =? q)%nat then b_0m (ws (S j)) i - b_1m (ws j) i else 0)).
  assert (total m (fun j => (if (2 * j + 1 =? q)%nat then P0p (S j) i - P1p j i else 0) + (if (2 * j + 2 =? q)%nat then P0m (S j) i - P1m j i else 0)) =
          (if solar then total m T1 else 0) + (if thermal then total m T2 else 0)) as ->.
  { rewrite (total_ext m _ (fun j => (if solar then T1 j else 0) + (if thermal then T2 j else 0))).
    - rewrite total_plus. f_equal; [destruct solar|destruct thermal]; try reflexivity; apply total_zero; reflexivity.
    - intros j _. unfold T1, T2, P0p, P1p, P0m, P1m. destruct solar, thermal, (2 * j + 1 =? q)%nat, (2 * j + 2 =? q)%nat; ring. }
  assert (mv n Rsf (P1m m) i = (if solar then match surf with None => 0 | Some Rs => total n (fun k => Rs i k * b_Fm (ws m) k) * b_atran (ws m) end else 0) +
                               (if thermal then match surf with None => 0 | Some Rs => total n (fun k => Rs i k * b_1m (ws m) k) end else 0)) as ->.
  { unfold mv, P1m, reflector. destruct surf as [Rs|]; [|rewrite total_zero by (intros; unfold zmat; ring); destruct solar, thermal; ring].
    rewrite (total_ext n _ (fun k => (if solar then b_atran (ws m) else 0) * (Rs i k * b_Fm (ws m) k) + (if thermal then 1 else 0) * (Rs i k * b_1m (ws m) k))) by (intros; destruct solar, thermal; ring).
    rewrite total_plus, !total_scale. destruct solar, thermal; ring. }
  unfold P0m, P1p. destruct solar, thermal; cbv zeta; rewrite ?rhs_thermal_is, ?rhs_solar_is, ?rhs_light_is by exact Hi; fold T1; fold T2; destruct (0 =? q)%nat, (2 * m + 1 =? q)%nat; ring.
Qed.
Lemma right_first : forall i, (i < n)%nat -> right 0 i = top i - P0m 0 i.
Proof using Pos. intros. rewrite right_is, only_none by (assumption || (left; reflexivity) || (right; reflexivity)). rewrite (eqb_no (2 * m + 1) 0) by lia. rewrite Nat.eqb_refl. ring. Qed.
Lemma right_up : forall k i, (k < m)%nat -> (i < n)%nat -> right (2 * k + 1) i = P0p (S k) i - P1p k i.
Proof using Pos. intros k i Hk Hi. rewrite right_is, (only_odd (fun j => P0p (S j) i - P1p j i) (fun j => P0m (S j) i - P1m j i) k Hk) by exact Hi. rewrite (eqb_no 0 (2 * k + 1)), (eqb_no (2 * m + 1) (2 * k + 1)) by lia. ring. Qed.
Lemma right_dn : forall k i, (k < m)%nat -> (i < n)%nat -> right (2 * k + 2) i = P0m (S k) i - P1m k i.
Proof using Pos. intros k i Hk Hi. rewrite right_is, (only_even (fun j => P0p (S j) i - P1p j i) (fun j => P0m (S j) i - P1m j i) k Hk) by exact Hi. rewrite (eqb_no 0 (2 * k + 2)), (eqb_no (2 * m + 1) (2 * k + 2)) by lia. ring. Qed.
Lemma right_last : forall i, (i < n)%nat -> right (2 * m + 1) i = bot i - P1p m i + mv n Rsf (P1m m) i.
Proof using Pos. intros. rewrite right_is, only_none by (assumption || (left; reflexivity) || (right; reflexivity)). rewrite (eqb_no 0 (2 * m + 1)) by lia. rewrite Nat.eqb_refl. ring. Qed.
(** The system says: the light that falls on the top is [top], there is no jump at any level, the surface reflects and emits [bot]. *)
Definition joined (up0 dn0 upL dnL : nat -> vec) (t b : vec) : Prop :=
  (forall i, (i < n)%nat -> dn0 0%nat i = t i) /\
  (forall k i, (k < m)%nat -> (i < n)%nat -> upL k i = up0 (S k) i /\ dnL k i = dn0 (S k) i) /\
  (forall i, (i < n)%nat -> upL m i = mv n Rsf (dnL m) i + b i).
Lemma system_joined : forall B, (forall q i, (q < K)%nat -> (i < n)%nat -> rows B q i = right q i) <->
  joined (fun k i => Up0 B k i + P0p k i) (fun k i => Dn0 B k i + P0m k i) (fun k i => UpL B k i + P1p k i) (fun k i => DnL B k i + P1m k i) top bot.
Proof using Pos.
  intros B. split.
  - intros H. refine (conj _ (conj _ _)).
    + intros i Hi. pose proof (H 0%nat i ltac:(lia) Hi) as E. rewrite row_first, right_first in E by exact Hi. lra.
    + intros k i Hk Hi. pose proof (H (2 * k + 1)%nat i ltac:(lia) Hi) as E. rewrite row_up, right_up in E by assumption.
      pose proof (H (2 * k + 2)%nat i ltac:(lia) Hi) as F. rewrite row_dn, right_dn in F by assumption. lra.
    + intros i Hi. pose proof (H (2 * m + 1)%nat i ltac:(lia) Hi) as E. rewrite row_last, right_last in E by assumption. rewrite mv_plus. lra.
  - intros (J1 & J2 & J3) q i Hq Hi. destruct (row_cases q Hq) as [ -> |[(k & Hk & [ -> | -> ])| -> ]].
    + rewrite row_first, right_first by exact Hi. pose proof (J1 i Hi). lra.
    + rewrite row_up, right_up by assumption. pose proof (J2 k i Hk Hi). lra.
    + rewrite row_dn, right_dn by assumption. pose proof (J2 k i Hk Hi). lra.
    + rewrite row_last, right_last by assumption. pose proof (J3 i Hi) as E. rewrite mv_plus in E. lra.
Qed.
End System.
