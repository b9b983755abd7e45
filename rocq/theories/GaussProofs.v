(** The contracts of the external routines for linear systems can be met: Gaussian elimination meets them, for every size. *)
From Coq Require Import Reals Bool Arith Lia Lra.
From Verif Require Import Base DeltaMSpec DeltaMProofs AddingModel AddingSpec AddingMat EigMat BvpSpec.
Open Scope R_scope.

(** The first row with something in a column *)
Fixpoint pivot (k : nat) (g : vec) : nat := match k with O => 0%nat | S k' => let p := pivot k' g in if Req_EM_T (g p) 0 then k' else p end.
Fixpoint gauss (n : nat) (a : mat) (b : vec) : vec :=
  match n with
  | O => fun _ => 0
  | S m => let k := pivot (S m) (fun i => a i m) in
           let y := gauss m (fun i j => a (skip k i) j - a (skip k i) m * a k j / a k m) (fun i => b (skip k i) - a (skip k i) m * b k / a k m) in
           fun j => if Nat.eqb j m then (b k - total m (fun j => a k j * y j)) / a k m else y j
  end.
(** x a = y, row by row *)
Definition gauss_rows (n : nat) (a x : mat) : mat := fun i => gauss n (fun r c => a c r) (x i).
Definition gauss_band (N kl ku : nat) (a : mat) : option (vec -> vec) := Some (gauss N (unband kl ku a)).

Lemma pivot_in : forall k g, (0 < k)%nat -> (pivot k g < k)%nat.
Proof. induction k; intros g H; [lia|]. cbn [pivot]. destruct (Req_EM_T _ 0); [lia|]. destruct k; [cbn; lia|]. specialize (IHk g ltac:(lia)). lia. Qed.
Lemma pivot_here : forall k g i, (i < k)%nat -> g i <> 0 -> g (pivot k g) <> 0.
Proof.
  induction k; intros g i Hi N; [lia|]. cbn [pivot]. destruct (Req_EM_T (g (pivot k g)) 0) as [Z|Z]; [|exact Z].
  destruct (Nat.eq_dec i k) as [->|E]; [exact N|]. exfalso. apply (IHk g i ltac:(lia) N). exact Z.
Qed.
Lemma gauss_solves : forall n a, injective n a -> forall b i, (i < n)%nat -> mv n a (gauss n a b) i = b i.
Proof.
  induction n as [|m IH]; intros a INJ b r Hr; [lia|]. cbn [gauss].
  set (k := pivot (S m) (fun i => a i m)). assert (k < S m)%nat as Hk by (apply pivot_in; lia).
  assert (a k m <> 0) as NZ.
  { destruct (all_zero_or (S m) (fun i => a i m)) as [Z|(i & Hi & N)]; [|exact (pivot_here (S m) (fun i => a i m) i Hi N)].
    exfalso. assert ((fun j => if Nat.eqb j m then 1 else 0) m = 0) as E; [|cbv beta in E; rewrite Nat.eqb_refl in E; lra].
    apply (INJ (fun j => if Nat.eqb j m then 1 else 0)); [|lia]. intros i Hi. unfold mv. apply total_zero. intros j Hj.
    destruct (Nat.eqb_spec j m) as [->|]; [rewrite Z by exact Hi; ring|ring]. }
  set (a' := fun i j => a (skip k i) j - a (skip k i) m * a k j / a k m).
  assert (forall i, (i < m)%nat -> (skip k i < S m)%nat) as Sk by (intros i Hi; unfold skip; destruct (Nat.ltb i k); lia).
  assert (forall y c i, (i < m)%nat -> total m (fun j => a (skip k i) j * y j) + a (skip k i) m * ((c - total m (fun j => a k j * y j)) / a k m) = mv m a' y i + a (skip k i) m * c / a k m) as Row.
  { intros y c i Hi. unfold mv, a'. rewrite (total_ext m (fun j => (a (skip k i) j - a (skip k i) m * a k j / a k m) * y j) (fun j => a (skip k i) j * y j + (- a (skip k i) m / a k m) * (a k j * y j))) by (intros; field; exact NZ).
    rewrite total_plus, total_scale. field. exact NZ. }
  assert (forall y z i, total (S m) (fun j => a i j * (if Nat.eqb j m then z else y j)) = total m (fun j => a i j * y j) + a i m * z) as Ex.
  { intros y z i. cbn [total]. rewrite Nat.eqb_refl. f_equal. apply total_ext. intros j Hj. destruct (Nat.eqb_spec j m); [lia|reflexivity]. }
  assert (injective m a') as INJ'.
  { intros y Z i Hi. set (z := (0 - total m (fun j => a k j * y j)) / a k m).
    assert ((fun j => if Nat.eqb j m then z else y j) i = 0) as E; [|cbv beta in E; destruct (Nat.eqb_spec i m); [lia|exact E]].
    apply (INJ (fun j => if Nat.eqb j m then z else y j)); [|lia]. intros q Hq. unfold mv. rewrite Ex. destruct (Nat.eq_dec q k) as [->|NE].
    - unfold z. field. exact NZ.
    - assert (exists i, (i < m)%nat /\ q = skip k i) as (i' & Hi' & ->).
      { unfold skip. destruct (Nat.lt_ge_cases q k); [exists q; split; [lia|destruct (Nat.ltb_spec q k); lia]|exists (q - 1)%nat; split; [lia|destruct (Nat.ltb_spec (q - 1) k); lia]]. }
      unfold z. rewrite Row by exact Hi'. rewrite Z by exact Hi'. field. exact NZ. }
  set (b' := fun i => b (skip k i) - a (skip k i) m * b k / a k m).
  unfold mv at 1. rewrite Ex. destruct (Nat.eq_dec r k) as [->|NE]; [field; exact NZ|].
  assert (exists i, (i < m)%nat /\ r = skip k i) as (i' & Hi' & ->).
  { unfold skip. destruct (Nat.lt_ge_cases r k); [exists r; split; [lia|destruct (Nat.ltb_spec r k); lia]|exists (r - 1)%nat; split; [lia|destruct (Nat.ltb_spec (r - 1) k); lia]]. }
  rewrite Row by exact Hi'. rewrite (IH a' INJ' b' i' Hi'). unfold b'. field. exact NZ.
Qed.
(** The contract of the pair dmat_getrf / dmat_getrs of the model (AddingSpec) *)
Theorem gauss_solver : forall n, solver n (gauss_rows n).
Proof.
  intros n a x (p & P1 & P2) i j Hi Hj. unfold gauss_rows. rewrite <- (gauss_solves n (fun r c => a c r)) with (b := x i) (i := j); [|clear i j Hi Hj|exact Hj].
  - unfold mv. apply total_ext. intros. ring.
  - intros v Z i Hi. assert (forall c, (c < n)%nat -> total n (fun k => v k * a k c) = 0) as Z'.
    { intros c Hc. rewrite <- (Z c Hc). unfold mv. apply total_ext. intros. ring. }
    transitivity (total n (fun k => v k * ident k i)).
    + unfold ident. rewrite (total_ext n _ (fun k => if Nat.eqb k i then v i else 0)).
      * symmetry. clear -Hi. induction n; [lia|]. cbn [total]. destruct (Nat.eqb_spec n i) as [->|NE].
        -- rewrite total_zero; [ring|]. intros j Hj. destruct (Nat.eqb_spec j i); [lia|reflexivity].
        -- rewrite IHn by lia. ring.
      * intros k Hk. destruct (Nat.eqb_spec k i) as [->|]; ring.
    + rewrite (total_ext n _ (fun k => total n (fun c => v k * a k c * p c i))).
      * rewrite total_swap. apply total_zero. intros c Hc. rewrite (total_ext n _ (fun k => p c i * (v k * a k c))) by (intros; ring). rewrite total_scale, Z' by exact Hc. ring.
      * intros k Hk. rewrite <- (P1 k i Hk Hi). rewrite <- total_scale. apply total_ext. intros. ring.
Qed.
(** ... and of dgbtrf / dgbtrs (BvpSpec) *)
Theorem gauss_band_solver : forall N kl ku, band_solver N kl ku (gauss_band N kl ku).
Proof.
  intros N kl ku a Ns. eexists. split; [reflexivity|]. intros v r Hr. apply (gauss_solves N (unband kl ku a)); [|exact Hr]. apply nonsingular_injective. exact Ns.
Qed.
