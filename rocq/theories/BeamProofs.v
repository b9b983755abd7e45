From Coq Require Import Reals Bool Arith Lia Lra.
From Verif Require Import DerivsModel DeltaMModel DeltaMSpec DeltaMProofs BeamModel BeamSpec.
Open Scope R_scope.

Lemma set1_eq : forall (T : Type) (a : nat -> T) i v, set1 a i v i = v.
Proof. intros. unfold set1. now rewrite Nat.eqb_refl. Qed.
Lemma set1_ne : forall (T : Type) (a : nat -> T) i j v, j <> i -> set1 a i v j = a j.
Proof. intros. unfold set1. destruct (Nat.eqb_spec j i); [contradiction|reflexivity]. Qed.
Lemma loop_first : forall (T : Type) n (g : nat -> T -> T) s, loop (S n) g s = loop n (fun k => g (S k)) (g 0%nat s).
Proof. intros T n g s. induction n as [|n IH]; [reflexivity|]. cbn [loop] in *. now rewrite IH. Qed.
Lemma loop_ext : forall (T : Type) n (g h : nat -> T -> T) s, (forall k x, (k < n)%nat -> g k x = h k x) -> loop n g s = loop n h s.
Proof. intros T n g h s E. induction n as [|n IH]; [reflexivity|]. cbn [loop]. rewrite IH by (intros; apply E; lia). apply E. lia. Qed.
Lemma loop_down_S : forall (T : Type) n (g : nat -> T -> T) s, loop_down (S n) g s = loop_down n g (g n s).
Proof.
  intros T n g s. unfold loop_down. rewrite loop_first. replace (S n - 1 - 0)%nat with n by lia.
  apply loop_ext. intros k x H. replace (S n - 1 - S k)%nat with (n - 1 - k)%nat by lia. reflexivity.
Qed.

(* ------------------------------------------------------------------------- *)
(** * Closed forms                                                            *)

Lemma psa_depth : forall (ltau chap : nat -> R) n, loop n (fun j s => s + ltau j * chap j) 0 = total n (fun j => ltau j * chap j).
Proof. intros. induction n as [|n IH]; [reflexivity|]. cbn [loop total]. now rewrite IH. Qed.
Lemma next_is : forall q ltau k, next_depth q ltau (slant q ltau k) k = slant q ltau (S k).
Proof.
  intros q ltau k. unfold next_depth, slant. destruct (q_psa q) eqn:P; cbn [negb].
  - apply (psa_depth ltau (q_chap q k)).
  - destruct k; cbn [total]; unfold Rdiv; ring.
Qed.

Section Full.
Variables (q : geo) (nd : nat) (ltau : nat -> R) (ltau_l : nat -> nat -> R).
Notation next_l b k j := (next_depth q (fun m => ltau_l m j) (btau_l b k j) k).

Lemma level_l_loop : forall m k b,
  let b' := loop m (level_l q ltau ltau_l k) b in
  (btau b' = btau b /\ btran b' = btran b /\ as_0 b' = as_0 b /\ atran b' = atran b) /\
  (forall p j, btau_l b' p j = if ((p =? S k) && (j <? m))%nat then next_l b k j else btau_l b p j) /\
  (forall p j, btran_l b' p j = if ((p =? S k) && (j <? m))%nat then - next_l b k j * btran b (S k) else btran_l b p j) /\
  (forall p j, as_0_l b' p j = if ((p =? k) && (j <? m))%nat then (next_l b k j - btau_l b k j - as_0 b k * ltau_l k j) / ltau k else as_0_l b p j) /\
  (forall p j, atran_l b' p j = if ((p =? k) && (j <? m))%nat then
       - (ltau_l k j * as_0 b k + ltau k * ((next_l b k j - btau_l b k j - as_0 b k * ltau_l k j) / ltau k)) * atran b k else atran_l b p j).
Proof.
  intros m k b. induction m as [|m IH]; cbv zeta in *.
  - cbn [loop]. split; [auto|]. refine (conj _ (conj _ (conj _ _))); intros p j; rewrite andb_false_r; reflexivity.
  - cbn [loop]. set (L := loop m _ b) in *. clearbody L. destruct IH as ((V1 & V2 & V3 & V4) & D1 & D2 & D3 & D4).
    assert (K : btau_l L k m = btau_l b k m).
    { rewrite D1. destruct (Nat.eqb_spec k (S k)); [lia|]. reflexivity. }
    unfold level_l. cbv zeta. cbn [btau btran as_0 atran btau_l btran_l as_0_l atran_l]. split; [auto|].
    assert (E1 : forall x, set2 (btau_l L) (S k) m x (S k) m = x) by (intros; unfold set2; now rewrite !Nat.eqb_refl).
    assert (E2 : forall x, set2 (btau_l L) (S k) m x k m = btau_l b k m).
    { intros. unfold set2. destruct (Nat.eqb_spec k (S k)); [lia|]. exact K. }
    assert (E3 : forall x, set2 (as_0_l L) k m x k m = x) by (intros; unfold set2; now rewrite !Nat.eqb_refl).
    rewrite !E1, !E2, !E3, K, ?V1, ?V2, ?V3, ?V4.
    refine (conj _ (conj _ (conj _ _))); intros p j; unfold set2; rewrite ?D1, ?D2, ?D3, ?D4;
      repeat match goal with |- context [(?a =? ?b)%nat] => destruct (Nat.eqb_spec a b); try lia end; cbn [andb];
      repeat match goal with |- context [(?a <? ?b)%nat] => destruct (Nat.ltb_spec a b); try lia end; subst; reflexivity.
Qed.

(** What the loop leaves after level n. *)
Definition closed (n : nat) (b : beam) : Prop :=
  (forall m, (m <= n)%nat -> btau b m = slant q ltau m /\ btran b m = exp (- slant q ltau m)) /\
  (forall k, (k < n)%nat -> as_0 b k = (slant q ltau (S k) - slant q ltau k) / ltau k /\ atran b k = exp (- ltau k * as_0 b k)) /\
  (forall m j, (m <= n)%nat -> (j < nd)%nat -> btau_l b m j = slant q (fun p => ltau_l p j) m /\
     btran_l b m j = - slant q (fun p => ltau_l p j) m * btran b m) /\
  (forall k j, (k < n)%nat -> (j < nd)%nat ->
     as_0_l b k j = (slant q (fun p => ltau_l p j) (S k) - slant q (fun p => ltau_l p j) k - as_0 b k * ltau_l k j) / ltau k /\
     atran_l b k j = - (ltau_l k j * as_0 b k + ltau k * as_0_l b k j) * atran b k).
Lemma zeros : forall n x p j, loop n (fun j x => set2 x 0 j 0) x p j = if ((p =? 0) && (j <? n))%nat then 0 else x p j.
Proof.
  intros n x p j. induction n as [|n IH]; [cbn [loop]; now rewrite andb_false_r|].
  cbn [loop]. set (L := loop n _ x) in *. clearbody L. unfold set2. rewrite IH.
  destruct (Nat.eqb_spec p 0); cbn [andb]; [|reflexivity].
  destruct (Nat.eqb_spec j n); destruct (Nat.ltb_spec j n); destruct (Nat.ltb_spec j (S n)); try lia; reflexivity.
Qed.
Lemma beam_closed : forall n b, closed n (beam_params q nd n ltau ltau_l b).
Proof.
  intros n b. unfold beam_params. induction n as [|n IH].
  - cbn [loop]. unfold top, closed. cbn [btau btran as_0 atran btau_l btran_l as_0_l atran_l].
    refine (conj _ (conj _ (conj _ _))).
    + intros m H. assert (m = 0%nat) as -> by lia. rewrite !set1_eq. cbn [slant]. rewrite Ropp_0, exp_0. auto.
    + intros; lia.
    + intros m j H J. assert (m = 0%nat) as -> by lia. rewrite !zeros. cbn [Nat.eqb andb slant]. apply Nat.ltb_lt in J. rewrite J. split; [reflexivity|ring].
    + intros; lia.
  - cbn [loop]. set (L := loop n _ (top nd b)) in *. clearbody L. destruct IH as (C1 & C2 & C3 & C4).
    unfold level. cbv zeta.
    set (L0 := {| btau := _; btran := _; as_0 := _; atran := _; btau_l := _; btran_l := _; as_0_l := _; atran_l := _ |}).
    destruct (level_l_loop nd n L0) as ((V1 & V2 & V3 & V4) & D1 & D2 & D3 & D4). set (L' := loop nd _ L0) in *. clearbody L'.
    destruct (C1 n (le_n n)) as [Bn _]. 
    assert (B1 : btau L0 (S n) = slant q ltau (S n)).
    { cbn [L0 btau]. rewrite set1_eq, Bn. apply next_is. }
    assert (B0 : forall m, (m <= n)%nat -> btau L0 m = slant q ltau m).
    { intros m H. cbn [L0 btau]. rewrite set1_ne by lia. apply C1. exact H. }
    assert (T1 : btran L0 (S n) = exp (- slant q ltau (S n))).
    { change (set1 (btran L) (S n) (exp (- btau L0 (S n))) (S n) = exp (- slant q ltau (S n))). rewrite set1_eq. now rewrite B1. }
    assert (T0 : forall m, (m <= n)%nat -> btran L0 m = btran L m).
    { intros m H. cbn [L0 btran]. rewrite set1_ne by lia. reflexivity. }
    assert (A1 : as_0 L0 n = (slant q ltau (S n) - slant q ltau n) / ltau n).
    { change (set1 (as_0 L) n ((btau L0 (S n) - btau L0 n) / ltau n) n = (slant q ltau (S n) - slant q ltau n) / ltau n). rewrite set1_eq. now rewrite B1, B0. }
    assert (A0 : forall k, (k < n)%nat -> as_0 L0 k = as_0 L k) by (intros; cbn [L0 as_0]; rewrite set1_ne by lia; reflexivity).
    assert (R1 : atran L0 n = exp (- ltau n * as_0 L0 n)).
    { change (set1 (atran L) n (exp (- ltau n * as_0 L0 n)) n = exp (- ltau n * as_0 L0 n)). apply set1_eq. }
    assert (R0 : forall k, (k < n)%nat -> atran L0 k = atran L k) by (intros; cbn [L0 atran]; rewrite set1_ne by lia; reflexivity).
    assert (NL : forall j, (j < nd)%nat -> next_l L0 n j = slant q (fun p => ltau_l p j) (S n)).
    { intros j J. cbn [L0 btau_l]. destruct (C3 n j (le_n n) J) as [-> _]. apply next_is. }
    assert (NP : forall j, (j < nd)%nat -> btau_l L0 n j = slant q (fun p => ltau_l p j) n).
    { intros j J. cbn [L0 btau_l]. apply C3; [apply le_n|exact J]. }
    unfold closed. rewrite V1, V2, V3, V4. refine (conj _ (conj _ (conj _ _))).
    + intros m H. destruct (Nat.eq_dec m (S n)) as [->|N]; [auto|].
      assert (m <= n)%nat as Lm by lia. rewrite B0, T0 by exact Lm. split; [reflexivity|]. apply C1. exact Lm.
    + intros k H. destruct (Nat.eq_dec k n) as [->|N]; [auto|]. rewrite A0, R0 by lia. apply C2. lia.
    + intros m j H J. rewrite D1, D2. apply Nat.ltb_lt in J as J'. rewrite J', andb_true_r.
      destruct (Nat.eqb_spec m (S n)) as [->|N]; [rewrite NL by exact J; auto|].
      rewrite T0 by lia. apply C3; [lia|exact J].
    + intros k j H J. rewrite D3, D4. apply Nat.ltb_lt in J as J'. rewrite J', andb_true_r.
      destruct (Nat.eqb_spec k n) as [->|N]; [rewrite NL, NP by exact J; auto|].
      rewrite A0, R0 by lia. apply C4; [lia|exact J].
Qed.
End Full.

(* ------------------------------------------------------------------------- *)
(** * Derivatives                                                             *)

Lemma dl_exp_neg : forall g x a, derivable_pt_lim g x a -> derivable_pt_lim (fun t => exp (- g t)) x (- a * exp (- g x)).
Proof.
  intros g x a D. eapply dl_eq.
  - apply (derivable_pt_lim_comp (fun t => - g t) exp x (- a) (exp (- g x))).
    + apply (derivable_pt_lim_opp g x a D).
    + apply derivable_pt_lim_exp.
  - ring.
Qed.
Lemma dl_total : forall n (g : nat -> R -> R) t0 l, (forall k, (k < n)%nat -> derivable_pt_lim (g k) t0 (l k)) ->
  derivable_pt_lim (fun t => total n (fun k => g k t)) t0 (total n l).
Proof.
  induction n as [|n IH]; intros g t0 l D; cbn [total]; [apply dl_const|].
  apply dl_plus; [apply IH; intros; apply D; lia|apply D; lia].
Qed.
Lemma slant_deriv : forall q ltau t0 l m, (forall k, (k < m)%nat -> derivable_pt_lim (fun t => ltau t k) t0 (l k)) ->
  derivable_pt_lim (fun t => slant q (ltau t) m) t0 (slant q l m).
Proof.
  intros q ltau t0 l m D. unfold slant. destruct m; [apply dl_const|]. destruct (q_psa q).
  - apply dl_total. intros k H. eapply dl_eq; [apply dl_mult; [apply D; exact H|apply dl_const]|]. cbv beta. ring.
  - unfold Rdiv. eapply dl_eq; [apply dl_mult; [exact (dl_total (S m) (fun k t => ltau t k) t0 l D)|apply dl_const]|]. cbv beta. ring.
Qed.

(* ------------------------------------------------------------------------- *)
(** * Adjoint                                                                 *)

Lemma total_add1 : forall N (c x : nat -> R) i v, (i < N)%nat -> total N (fun k => c k * add1 x i v k) = total N (fun k => c k * x k) + c i * v.
Proof.
  induction N as [|N IH]; intros c x i v H; [lia|]. cbn [total]. destruct (Nat.eq_dec i N) as [->|Ne].
  - rewrite (total_ext N (fun k => c k * add1 x N v k) (fun k => c k * x k)).
    + unfold add1. rewrite set1_eq. ring.
    + intros k K. unfold add1. rewrite set1_ne by lia. reflexivity.
  - rewrite IH by lia. unfold add1. rewrite set1_ne by lia. ring.
Qed.
Lemma total_adds : forall N (c w : nat -> R) m, (m <= N)%nat -> forall x,
  total N (fun k => c k * loop_down m (fun j la => add1 la j (w j)) x k) = total N (fun k => c k * x k) + total m (fun j => c j * w j).
Proof.
  intros N c w. induction m as [|m IH]; intros L x.
  - cbn. ring.
  - rewrite loop_down_S, IH by lia. rewrite total_add1 by lia. cbn [total]. ring.
Qed.

Section Adjoint.
Variables (q : geo) (nd N : nat) (ltau : nat -> R) (ltau_l : nat -> nat -> R) (b : beam) (j : nat).
Hypothesis C : closed q nd ltau ltau_l N b.
Hypothesis J : (j < nd)%nat.
Hypothesis NZ : forall k, (k < N)%nat -> ltau k <> 0.
Notation lsum s := (total N (fun k => ltau_l k j * ltau_a s k)).
Definition phi (n : nat) (s : beam_a) : R := beam_pairing n j b s + lsum s.

(** The pairing up to level n when the adjoint of the depth of level n gains v. *)
Lemma pairing_bump : forall n s s' v,
  (forall k, (k < n)%nat -> btran_a s' (S k) = btran_a s (S k) /\ as_0_a s' k = as_0_a s k /\ atran_a s' k = atran_a s k) ->
  (forall k, (k < n)%nat -> btau_a s' (S k) = btau_a s (S k) + if (S k =? n)%nat then v else 0) ->
  (n <= N)%nat ->
  beam_pairing n j b s' = beam_pairing n j b s + btau_l b n j * v.
Proof.
  intros n s s' v E1 E2 L. unfold beam_pairing. destruct n as [|n].
  - cbn [total]. destruct C as (_ & _ & C3 & _). destruct (C3 0%nat j ltac:(lia) J) as [-> _]. cbn [slant]. ring.
  - cbn [total].
    match goal with |- total n ?g + _ = total n ?h + _ + _ => rewrite (total_ext n g h) end.
    + destruct (E1 n ltac:(lia)) as (-> & -> & ->). rewrite E2 by lia. rewrite Nat.eqb_refl. ring.
    + intros k K. destruct (E1 k ltac:(lia)) as (-> & -> & ->). rewrite E2 by lia.
      destruct (Nat.eqb_spec (S k) (S n)); [lia|]. ring.
Qed.

Lemma step_a : forall n s, (n < N)%nat -> phi (S n) s = phi n (level_a q ltau b n s).
Proof.
  intros n s L. destruct C as (C1 & C2 & C3 & C4).
  destruct (C3 (S n) j ltac:(lia) J) as [Bl Tl]. destruct (C3 n j ltac:(lia) J) as [Bl0 _]. destruct (C4 n j L J) as [Al Rl].
  specialize (NZ n L).
  set (t0 := - atran_a s n * atran b n). set (sa := as_0_a s n + t0 * ltau n). set (t := sa / ltau n).
  set (B := btau_a s (S n) + t + - btran_a s (S n) * btran b (S n)).
  assert (LAST : btau_l b (S n) j * btau_a s (S n) + btran_l b (S n) j * btran_a s (S n) + as_0_l b n j * as_0_a s n + atran_l b n j * atran_a s n
     = btau_l b (S n) j * B - t * btau_l b n j + ltau_l n j * (t0 * as_0 b n - t * as_0 b n)).
  { rewrite Tl, Rl, Al. rewrite <- Bl, <- Bl0. unfold B, t, sa, t0. field. exact NZ. }
  assert (PS : beam_pairing (S n) j b s = beam_pairing n j b s + (btau_l b (S n) j * B - t * btau_l b n j + ltau_l n j * (t0 * as_0 b n - t * as_0 b n))).
  { unfold beam_pairing. cbn [total]. rewrite LAST. reflexivity. }
  unfold phi. rewrite PS. clear PS LAST.
  unfold level_a. cbv zeta. fold t0.
  assert (SA : add1 (as_0_a s) n (t0 * ltau n) n = sa) by (unfold add1, sa; apply set1_eq). rewrite SA. fold t.
  set (ba := add1 (add1 (add1 (btau_a s) (S n) t) n (- t)) (S n) (- btran_a s (S n) * btran b (S n))).
  assert (BB : ba (S n) = B).
  { unfold ba, B, add1. rewrite set1_eq, (set1_ne _ _ n (S n)) by lia. rewrite set1_eq. reflexivity. }
  assert (BO : forall k, (k < n)%nat -> ba (S k) = btau_a s (S k) + if (S k =? n)%nat then - t else 0).
  { intros k K. unfold ba, add1. rewrite (set1_ne _ _ (S n)) by lia. destruct (Nat.eqb_spec (S k) n) as [E|E].
    - rewrite <- E, set1_eq, set1_ne by lia. ring.
    - rewrite !set1_ne by lia. ring. }
  assert (OTH : forall k, (k < n)%nat -> add1 (as_0_a s) n (t0 * ltau n) k = as_0_a s k) by (intros; unfold add1; rewrite set1_ne by lia; reflexivity).
  destruct (q_psa q) eqn:P; cbn [negb].
  - match goal with |- _ = beam_pairing n j b ?s2 + _ => rewrite (pairing_bump n s s2 (- t)); [| | |lia] end.
    2:{ intros k K. cbn [btran_a as_0_a atran_a]. rewrite OTH by exact K. auto. }
    2:{ intros k K. cbn [btau_a]. apply BO. exact K. }
    cbn [ltau_a]. rewrite (total_adds N (fun k => ltau_l k j) (fun m => ba (S n) * q_chap q n m) (S n)) by lia.
    rewrite !total_add1 by lia. rewrite BB.
    assert (E : total (S n) (fun m => ltau_l m j * (B * q_chap q n m)) = btau_l b (S n) j * B).
    { rewrite Bl. unfold slant. rewrite P. rewrite Rmult_comm, <- total_scale. apply total_ext. intros. ring. }
    rewrite E. ring.
  - match goal with |- _ = beam_pairing n j b ?s2 + _ => rewrite (pairing_bump n s s2 (- t + B)); [| | |lia] end.
    2:{ intros k K. cbn [btran_a as_0_a atran_a]. rewrite OTH by exact K. auto. }
    2:{ intros k K. cbn [btau_a]. unfold add1 at 1. rewrite BB. destruct (Nat.eqb_spec (S k) n) as [E|E].
        - rewrite E, set1_eq. specialize (BO k K). rewrite E, Nat.eqb_refl in BO. rewrite BO. ring.
        - rewrite set1_ne by lia. rewrite BO by exact K. destruct (Nat.eqb_spec (S k) n); [contradiction|]. ring. }
    cbn [ltau_a]. rewrite !total_add1 by lia. unfold add1 at 1. rewrite BB, (set1_ne _ _ n (S n)) by lia. rewrite BB.
    assert (E : btau_l b (S n) j = btau_l b n j + ltau_l n j / q_mu0 q).
    { rewrite Bl, Bl0. rewrite <- next_is. unfold next_depth. rewrite P. reflexivity. }
    rewrite E. unfold Rdiv. ring.
Qed.
Lemma adjoint_down : forall n s, (n <= N)%nat -> phi n s = lsum (loop_down n (level_a q ltau b) s).
Proof.
  induction n as [|n IH]; intros s L.
  - unfold phi, beam_pairing. cbn. ring.
  - rewrite loop_down_S, <- IH by lia. apply step_a. lia.
Qed.
End Adjoint.

Lemma cleared : forall n (x : nat -> R) i, loop n (fun i x => set1 x i 0) x i = if (i <? n)%nat then 0 else x i.
Proof.
  intros n x i. induction n as [|n IH]; [reflexivity|]. cbn [loop]. set (L := loop n _ x) in *. clearbody L. unfold set1. rewrite IH.
  destruct (Nat.eqb_spec i n); destruct (Nat.ltb_spec i n); destruct (Nat.ltb_spec i (S n)); try lia; reflexivity.
Qed.
