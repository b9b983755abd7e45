(** What the right hand side of the derivatives of the boundary value solver holds. *)
From Coq Require Import Reals Bool Arith ZArith List Lia Lra.
From Verif Require Import Base DeltaMSpec DeltaMProofs AddingModel AddingSpec AddingMat RadianceModel EigModel EigSpec EigMat EigCore EigDModel BvpModel BvpSpec BvpProofs BvpDModel.
Import ListNotations.
Open Scope R_scope.

(** The derivatives of a layer with the flags: what is not flagged is zero. *)
Definition masked (a b c : bool) (w : waves) : waves :=
  {| b_ltau := when a (b_ltau w); b_atran := when b (b_atran w); b_as0 := when b (b_as0 w);
     b_nu := fun i => when a (b_nu w i); b_Xp := fun i j => when a (b_Xp w i j); b_Xm := fun i j => when a (b_Xm w i j);
     b_Fp := fun i => when b (b_Fp w i); b_Fm := fun i => when b (b_Fm w i);
     b_0p := fun i => when c (b_0p w i); b_0m := fun i => when c (b_0m w i); b_1p := fun i => when c (b_1p w i); b_1m := fun i => when c (b_1m w i) |}.

Section Rows.
Variable n : nat.
Hypothesis Pos : (0 < n)%nat.
Variable m : nat.
Variables w dw : nat -> waves.
Variables (solar thermal : bool).
Notation pt := (part n).
(** Derivatives of the light of the modes with the coefficients kept *)
Definition Up0' (B : vec) (k : nat) : vec := fun i => mv n (b_Xp (dw k)) (pt B (2 * k)) i +
  (mv n (b_Xm (dw k)) (fun j => lam (w k) j * pt B (2 * k + 1) j) i + mv n (b_Xm (w k)) (fun j => lam_l (w k) (dw k) j * pt B (2 * k + 1) j) i).
Definition Dn0' (B : vec) (k : nat) : vec := fun i => - mv n (b_Xm (dw k)) (pt B (2 * k)) i -
  (mv n (b_Xp (dw k)) (fun j => lam (w k) j * pt B (2 * k + 1) j) i + mv n (b_Xp (w k)) (fun j => lam_l (w k) (dw k) j * pt B (2 * k + 1) j) i).
Definition UpL' (B : vec) (k : nat) : vec := fun i => mv n (b_Xp (dw k)) (fun j => lam (w k) j * pt B (2 * k) j) i +
  mv n (b_Xp (w k)) (fun j => lam_l (w k) (dw k) j * pt B (2 * k) j) i + mv n (b_Xm (dw k)) (pt B (2 * k + 1)) i.
Definition DnL' (B : vec) (k : nat) : vec := fun i => - mv n (b_Xm (dw k)) (fun j => lam (w k) j * pt B (2 * k) j) i -
  mv n (b_Xm (w k)) (fun j => lam_l (w k) (dw k) j * pt B (2 * k) j) i - mv n (b_Xp (dw k)) (pt B (2 * k + 1)) i.
Definition P0p' (k : nat) : vec := fun i => when solar (b_Fp (dw k) i) + when thermal (b_0p (dw k) i).
Definition P0m' (k : nat) : vec := fun i => when solar (b_Fm (dw k) i) + when thermal (b_0m (dw k) i).
Definition P1p' (k : nat) : vec := fun i => when solar (b_Fp (dw k) i * b_atran (w k) + b_Fp (w k) i * b_atran (dw k)) + when thermal (b_1p (dw k) i).
Definition P1m' (k : nat) : vec := fun i => when solar (b_Fm (dw k) i * b_atran (w k) + b_Fm (w k) i * b_atran (dw k)) + when thermal (b_1m (dw k) i).
End Rows.

Lemma total_sub : forall n f g, total n (fun k => f k - g k) = total n f - total n g.
Proof. induction n; intros; cbn [total]; [ring|rewrite IHn; ring]. Qed.
Lemma total_neg : forall n f, total n (fun k => - f k) = - total n f.
Proof. induction n; intros; cbn [total]; [ring|rewrite IHn; ring]. Qed.
Ltac collect := unfold mv; rewrite <- ?total_plus, <- ?total_neg, <- ?total_sub; repeat (progress (rewrite <- ?total_plus, <- ?total_neg, <- ?total_sub)).

Section Rhs.
Variable n : nat.
Hypothesis Pos : (0 < n)%nat.
Variable m : nat.
Variables ws wl : nat -> waves.
Variable surf : option mat.
Variable Rs_l : mat.
Variables dl db dt : nat -> bool.
Variables (solar thermal : bool).
Variables (top_l bot_l : vec).
Variables (B old : vec).
Notation pt := (part n).
Notation dw := (fun k => masked (dl k) (db k) (dt k) (wl k)).
Notation rl q i := (rhs_l n m ws wl surf Rs_l dl db dt solar thermal top_l bot_l B old (q * n + i)%nat).
Notation mp := (middle_p n ws wl dl db dt solar thermal B).
Notation mm := (middle_m n ws wl dl db dt solar thermal B).
Lemma set_at_is : forall p v b q i, (i < n)%nat -> set_at n p v b (q * n + i)%nat = if (p =? q)%nat then v i else b (q * n + i)%nat.
Proof using Pos.
  intros p v b q i Hi. unfold set_at. destruct (Nat.eqb_spec p q) as [->|E].
  - replace (q * n <=? q * n + i)%nat with true by (symmetry; apply Nat.leb_le; lia). replace (q * n + i <? q * n + n)%nat with true by (symmetry; apply Nat.ltb_lt; lia). cbn [andb].
    replace (q * n + i - q * n)%nat with i by lia. reflexivity.
  - destruct ((p * n <=? q * n + i)%nat && (q * n + i <? p * n + n)%nat) eqn:D; [|reflexivity].
    apply andb_true_iff in D. destruct D as (D1 & D2). apply Nat.leb_le in D1. apply Nat.ltb_lt in D2. exfalso. apply E.
    apply (block_index n p (q * n + i - p * n) q i); lia.
Qed.
Notation body := (fun b i => set_at n (2 * i + 2) (mm i) (set_at n (2 * i + 1) (mp i) b)).
Lemma fold_0 : forall k b i, (i < n)%nat -> fold_left body (seq 0 k) b (0 * n + i)%nat = b (0 * n + i)%nat.
Proof using Pos.
  induction k as [|k IH]; intros b i Hi; [reflexivity|]. rewrite seq_S, fold_left_app. cbn [fold_left]. rewrite !set_at_is by exact Hi.
  rewrite (eqb_no n Pos (2 * (0 + k) + 2) 0), (eqb_no n Pos (2 * (0 + k) + 1) 0) by lia. apply IH, Hi.
Qed.
Lemma fold_at : forall k b j i, (i < n)%nat -> (j < k)%nat -> fold_left body (seq 0 k) b ((2 * j + 1) * n + i)%nat = mp j i /\ fold_left body (seq 0 k) b ((2 * j + 2) * n + i)%nat = mm j i.
Proof using Pos.
  induction k as [|k IH]; intros b j i Hi Hj; [lia|]. rewrite seq_S, fold_left_app. cbn [fold_left]. rewrite !set_at_is by exact Hi. cbn [Nat.add].
  destruct (Nat.eq_dec j k) as [->|N].
  - rewrite (eqb_no n Pos (2 * k + 2) (2 * k + 1)) by lia. rewrite !Nat.eqb_refl. split; reflexivity.
  - rewrite (eqb_no n Pos (2 * k + 2) (2 * j + 1)), (eqb_no n Pos (2 * k + 1) (2 * j + 1)), (eqb_no n Pos (2 * k + 2) (2 * j + 2)), (eqb_no n Pos (2 * k + 1) (2 * j + 2)) by lia. apply IH; [exact Hi|lia].
Qed.
Lemma IX : forall p k, (p * (n * 2) + k)%nat = (2 * p * n + k)%nat /\ (2 * p * n + k + n)%nat = ((2 * p + 1) * n + k)%nat /\
  (2 * p * n + k + n * 2)%nat = (2 * S p * n + k)%nat /\ (2 * p * n + k + n * 3)%nat = ((2 * S p + 1) * n + k)%nat.
Proof using Pos. intros. refine (conj _ (conj _ (conj _ _))); ring. Qed.
Lemma when_and : forall a b x, when (a && b) x = when a (when b x).
Proof using Pos. intros a b x. case a; case b; reflexivity. Qed.
Lemma when_0 : forall a, when a 0 = 0. Proof using Pos. intros a. case a; reflexivity. Qed.
Lemma when_total : forall b f, when b (total n f) = total n (fun k => when b (f k)).
Proof using Pos. intros b f. case b; [reflexivity|]. symmetry. apply total_zero. reflexivity. Qed.
Ltac flags := rewrite ?when_and; unfold lam_l; cbn [masked b_ltau b_atran b_nu b_Xp b_Xm b_Fp b_Fm b_0p b_0m b_1p b_1m].
Lemma rl_first : forall i, (i < n)%nat -> rl 0 i = top_l i - P0m' dw solar thermal 0 i - Dn0' n ws dw B 0 i.
Proof using Pos.
  intros i Hi. unfold rhs_l. rewrite set_at_is by exact Hi. rewrite (eqb_no n Pos (2 * m + 1) 0) by lia. rewrite fold_0, set_at_is by exact Hi. rewrite Nat.eqb_refl.
  unfold first_l, P0m'. flags. rewrite when_total.
  match goal with |- _ - total n ?f + _ = _ => assert (total n f = Dn0' n ws dw B 0 i) as -> end; [|ring].
  unfold Dn0'. collect. apply total_ext. intros j Hj. unfold part. replace (2 * 0 * n + j)%nat with j by ring. replace ((2 * 0 + 1) * n + j)%nat with (j + n)%nat by ring.
  flags. case (dl 0%nat); unfold when; ring.
Qed.
Lemma rl_up : forall k i, (k < m)%nat -> (i < n)%nat -> rl (2 * k + 1) i = P0p' dw solar thermal (S k) i - P1p' ws dw solar thermal k i - (UpL' n ws dw B k i - Up0' n ws dw B (S k) i).
Proof using Pos.
  intros k i Hk Hi. unfold rhs_l. rewrite set_at_is by exact Hi. rewrite (eqb_no n Pos (2 * m + 1) (2 * k + 1)) by lia. rewrite (proj1 (fold_at _ _ _ _ Hi Hk)).
  unfold middle_p, P0p', P1p'. flags.
  match goal with |- _ + total n ?f = _ => assert (total n f = - (UpL' n ws dw B k i - Up0' n ws dw B (S k) i)) as -> end.
  - unfold UpL', Up0'. collect. apply total_ext. intros j Hj. unfold part. destruct (IX k j) as (-> & -> & -> & ->).
    flags. case (dl k); case (dl (S k)); unfold when; ring.
  - case solar; case thermal; case (db k); case (dt k); case (db (S k)); case (dt (S k)); unfold when; ring.
Qed.
Lemma rl_dn : forall k i, (k < m)%nat -> (i < n)%nat -> rl (2 * k + 2) i = P0m' dw solar thermal (S k) i - P1m' ws dw solar thermal k i - (DnL' n ws dw B k i - Dn0' n ws dw B (S k) i).
Proof using Pos.
  intros k i Hk Hi. unfold rhs_l. rewrite set_at_is by exact Hi. rewrite (eqb_no n Pos (2 * m + 1) (2 * k + 2)) by lia. rewrite (proj2 (fold_at _ _ _ _ Hi Hk)).
  unfold middle_m, P0m', P1m'. flags.
  match goal with |- _ + total n ?f = _ => assert (total n f = - (DnL' n ws dw B k i - Dn0' n ws dw B (S k) i)) as -> end.
  - unfold DnL', Dn0'. collect. apply total_ext. intros j Hj. unfold part. destruct (IX k j) as (-> & -> & -> & ->).
    flags. case (dl k); case (dl (S k)); unfold when; ring.
  - case solar; case thermal; case (db k); case (dt k); case (db (S k)); case (dt (S k)); unfold when; ring.
Qed.
Definition surf_l : mat := fun i j => match surf with None => 0 | Some _ => when (dl (S m)) (Rs_l i j) end.
Definition emit_l : vec := fun i => match surf with None => 0 | Some _ => bot_l i end.
Notation Rsf := (reflector surf).
Lemma rl_last : forall i, (i < n)%nat -> rl (2 * m + 1) i =
  emit_l i - P1p' ws dw solar thermal m i + (mv n surf_l (P1m ws solar thermal m) i + mv n Rsf (P1m' ws dw solar thermal m) i)
  - (UpL' n ws dw B m i - (mv n surf_l (DnL n ws B m) i + mv n Rsf (DnL' n ws dw B m) i)).
Proof using Pos.
  intros i Hi. unfold rhs_l. rewrite set_at_is by exact Hi. rewrite Nat.eqb_refl. unfold last_l. cbv zeta.
  assert (forall (u v : vec) (x y : mat), mv n (fun j k => total n (fun l => x j l * y l k)) u i = mv n x (mv n y u) i) as A by (intros; symmetry; apply mv_mul).
  unfold emit_l, surf_l, reflector. case_eq surf; [intros Rs Es|intros Es].
  - match goal with |- _ + (total n ?f + _) + total n ?g = _ =>
      assert (total n f = mv n (fun a b => when (dl (S m)) (Rs_l a b)) (P1m ws solar thermal m) i + mv n Rs (P1m' ws dw solar thermal m) i) as ->;
      [|assert (total n g = - (UpL' n ws dw B m i - (mv n (fun a b => when (dl (S m)) (Rs_l a b)) (DnL n ws B m) i + mv n Rs (DnL' n ws dw B m) i))) as ->] end.
    + collect. apply total_ext. intros j Hj. unfold P1m, P1m'. flags. case solar; case thermal; case (db m); case (dt m); case (dl (S m)); unfold when; ring.
    + unfold DnL', DnL. rewrite !mv_minus, !mv_opp, <- !A by exact B. unfold UpL'. collect. apply total_ext. intros j Hj. unfold part. destruct (IX m j) as (-> & -> & _).
      rewrite (total_ext n (fun l => Rs i l * - b_Xm (ws m) l j) (fun l => - (Rs i l * b_Xm (ws m) l j))) by (intros; ring). rewrite total_neg.
      rewrite (total_ext n (fun l => when (dl m) (Rs i l * - b_Xm (wl m) l j) + when (dl (S m)) (Rs_l i l * - b_Xm (ws m) l j)) (fun l => - (when (dl (S m)) (Rs_l i l) * b_Xm (ws m) l j + Rs i l * b_Xm (masked (dl m) (db m) (dt m) (wl m)) l j)))
        by (intros; cbn [masked b_Xm]; case (dl m); case (dl (S m)); unfold when; ring). rewrite total_neg, total_plus.
      rewrite (total_ext n (fun l => when (dl m) (Rs i l * - b_Xp (wl m) l j) + when (dl (S m)) (Rs_l i l * - b_Xp (ws m) l j)) (fun l => - (when (dl (S m)) (Rs_l i l) * b_Xp (ws m) l j + Rs i l * b_Xp (masked (dl m) (db m) (dt m) (wl m)) l j)))
        by (intros; cbn [masked b_Xp]; case (dl m); case (dl (S m)); unfold when; ring). rewrite total_neg, total_plus.
      match goal with |- context [total n (fun l => Rs i l * b_Xm (ws m) l j)] => set (t1 := total n (fun l => Rs i l * b_Xm (ws m) l j)) end.
      set (t2 := total n (fun l => when (dl (S m)) (Rs_l i l) * b_Xm (ws m) l j)). set (t3 := total n (fun l => when (dl (S m)) (Rs_l i l) * b_Xp (ws m) l j)).
      set (t4 := total n (fun l => Rs i l * b_Xm (masked (dl m) (db m) (dt m) (wl m)) l j)). set (t5 := total n (fun l => Rs i l * b_Xp (masked (dl m) (db m) (dt m) (wl m)) l j)).
      clearbody t1 t2 t3 t4 t5. flags. case (dl m); unfold when; ring.
    + unfold P1p'. flags. case solar; case thermal; case (db m); case (dt m); unfold when; ring.
  - assert (forall v, mv n zmat v i = 0) as Z by (intros; unfold mv, zmat; apply total_zero; intros; ring).
    change (fun i0 j : nat => 0) with zmat. rewrite !Z.
    match goal with |- _ + total n ?g = _ => assert (total n g = - UpL' n ws dw B m i) as -> end.
    + unfold UpL'. collect. apply total_ext. intros j Hj. unfold part. destruct (IX m j) as (-> & -> & _).
      flags. case (dl m); unfold when; ring.
    + unfold P1p'. flags. case solar; case thermal; case (db m); case (dt m); unfold when; ring.
Qed.
End Rhs.
