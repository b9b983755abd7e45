(** What a Gauss rule integrates exactly, and what the code's loops assemble from the roots. *)
From Coq Require Import Reals Bool Lra Lia Arith.
From Verif Require Import DeltaMSpec DeltaMProofs DeltaMModel DerivsModel ScatSpec ScatProofs AddingMat EigProofs QuadSpec QuadModel QuadProofs QuadRoots.
Open Scope R_scope.

(** Sums of Legendre polynomials *)
Definition span (d : nat) (f : R -> R) : Prop := exists c : nat -> R, forall x, f x = total (S d) (fun l => c l * P l x).
Lemma span_ext : forall d f g, (forall x, f x = g x) -> span d f -> span d g.
Proof. intros d f g E (c & H). exists c. intros x. rewrite <- E. apply H. Qed.
Lemma span_P : forall d l, (l <= d)%nat -> span d (P l).
Proof.
  intros d l H. exists (fun k => if Nat.eqb l k then 1 else 0). intros x.
  rewrite (total_ext (S d) _ (fun k => if Nat.eqb l k then P k x else 0)) by (intros k _; destruct (Nat.eqb l k); ring).
  rewrite total_pick by lia. reflexivity.
Qed.
Lemma span_plus : forall d f g, span d f -> span d g -> span d (fun x => f x + g x).
Proof. intros d f g (a & A) (b & B). exists (fun l => a l + b l). intros x. rewrite A, B, <- total_plus. apply total_ext. intros. ring. Qed.
Lemma span_scale : forall d k f, span d f -> span d (fun x => k * f x).
Proof. intros d k f (a & A). exists (fun l => k * a l). intros x. rewrite A, <- total_scale. apply total_ext. intros. ring. Qed.
Lemma span_total : forall d m (f : nat -> R -> R), (forall k, (k < m)%nat -> span d (f k)) -> span d (fun x => total m (fun k => f k x)).
Proof.
  intros d m f. induction m; intros H.
  - exists (fun _ => 0). intros x. symmetry. apply (total_zero (S d)). intros. ring.
  - change (span d (fun x => total m (fun k => f k x) + f m x)). apply span_plus; [apply IHm; intros; apply H; lia|apply H; lia].
Qed.
Lemma span_more : forall d e f, (d <= e)%nat -> span d f -> span e f.
Proof.
  intros d e f L (c & H). apply (span_ext e (fun x => total (S d) (fun l => c l * P l x))). { intros x. symmetry. apply H. }
  apply (span_total e (S d) (fun l x => c l * P l x)). intros k Hk. apply span_scale, span_P. lia.
Qed.
Lemma span_x : forall d f, span d f -> span (S d) (fun x => x * f x).
Proof.
  intros d f (c & H).
  apply (span_ext (S d) (fun x => total (S d) (fun l => c l * (x * P l x)))).
  { intros x. rewrite H, <- total_scale. apply total_ext. intros. ring. }
  apply (span_total (S d) (S d) (fun l x => c l * (x * P l x))). intros l Hl. apply span_scale.
  destruct l as [|l].
  - apply (span_ext _ (P 1)); [intros; rewrite P0, P1; ring|]. apply span_P. lia.
  - pose proof (pos_INR l).
    apply (span_ext _ (fun x => (INR l + 2) / (2 * INR l + 3) * P (S (S l)) x + (INR l + 1) / (2 * INR l + 3) * P l x)).
    { intros x. transitivity (/ (2 * INR l + 3) * ((INR l + 2) * P (S (S l)) x + (INR l + 1) * P l x)); [field; lra|]. rewrite step. field. lra. }
    apply span_plus; apply span_scale, span_P; lia.
Qed.
Lemma span_power : forall a b k, span k (fun x => (a + b * x) ^ k).
Proof.
  intros a b. induction k.
  - apply (span_ext _ (P 0)); [reflexivity|]. apply span_P. lia.
  - apply (span_ext _ (fun x => a * (a + b * x) ^ k + b * (x * (a + b * x) ^ k))); [intros; cbn [pow]; ring|].
    apply span_plus; apply span_scale; [apply (span_more k); [lia|exact IHk]|apply span_x; exact IHk].
Qed.
Lemma span_polynomial : forall d f a b, polynomial d f -> span d (fun x => f (a + b * x)).
Proof.
  intros d f a b (c & H). apply (span_ext d (fun x => total (S d) (fun k => c k * (a + b * x) ^ k))). { intros x. symmetry. apply H. }
  apply (span_total d (S d) (fun k x => c k * (a + b * x) ^ k)). intros k Hk. apply span_scale. apply (span_more k); [lia|apply span_power].
Qed.
(** The Legendre polynomials are polynomials *)
Lemma poly_ext : forall d f g, (forall x, f x = g x) -> polynomial d f -> polynomial d g.
Proof. intros d f g E (c & H). exists c. intros x. rewrite <- E. apply H. Qed.
Lemma poly_plus : forall d f g, polynomial d f -> polynomial d g -> polynomial d (fun x => f x + g x).
Proof. intros d f g (a & A) (b & B). exists (fun l => a l + b l). intros x. rewrite A, B, <- total_plus. apply total_ext. intros. ring. Qed.
Lemma poly_scale : forall d k f, polynomial d f -> polynomial d (fun x => k * f x).
Proof. intros d k f (a & A). exists (fun l => k * a l). intros x. rewrite A, <- total_scale. apply total_ext. intros. ring. Qed.
Lemma poly_more : forall d e f, (d <= e)%nat -> polynomial d f -> polynomial e f.
Proof.
  intros d e f L (a & A). exists (fun l => if Nat.leb l d then a l else 0). intros x. rewrite A.
  replace (S e) with (S d + (e - d))%nat by lia. rewrite total_split.
  rewrite (total_ext (S d) (fun k => (if Nat.leb k d then a k else 0) * x ^ k) (fun k => a k * x ^ k)).
  - rewrite (total_zero (e - d)); [ring|]. intros k _. destruct (Nat.leb_spec (S d + k) d); [lia|ring].
  - intros k Hk. destruct (Nat.leb_spec k d); [reflexivity|lia].
Qed.
Lemma total_first : forall n f, total (S n) f = f 0%nat + total n (fun k => f (S k)).
Proof. intros. change (S n) with (1 + n)%nat. rewrite total_split. cbn [total]. rewrite Rplus_0_l. reflexivity. Qed.
Lemma poly_x : forall d f, polynomial d f -> polynomial (S d) (fun x => x * f x).
Proof.
  intros d f (a & A). exists (fun l => match l with O => 0 | S k => a k end). intros x. rewrite A, (total_first (S d)), <- total_scale.
  rewrite Rmult_0_l, Rplus_0_l. apply total_ext. intros. cbn [pow]. ring.
Qed.
Lemma legendre_polynomial : forall l, polynomial l (P l).
Proof.
  apply two_steps.
  - exists (fun _ => 1). intros. cbn. ring.
  - exists (fun k => INR k). intros. cbn. ring.
  - intros k A B. pose proof (pos_INR k).
    apply (poly_ext _ (fun x => (2 * INR k + 3) / (INR k + 2) * (x * P (S k) x) + - ((INR k + 1) / (INR k + 2)) * P k x)).
    + intros x. apply (Rmult_eq_reg_l (INR k + 2)); [|lra]. rewrite step. field. lra.
    + apply poly_plus; apply poly_scale; [apply poly_x; exact B|apply (poly_more k); [lia|exact A]].
Qed.

(** Antiderivatives *)
Definition Q (l : nat) (x : R) : R := match l with O => x | S k => (P (S (S k)) x - P k x) / (2 * INR k + 3) end.
Lemma Q_derivative : forall l x, derivable_pt_lim (Q l) x (P l x).
Proof.
  intros [|l] x.
  - apply derivable_pt_lim_id.
  - pose proof (pos_INR l).
    apply (deq (fun x => / (2 * INR l + 3) * (P (S (S l)) x - P l x)) _ _ (/ (2 * INR l + 3) * (dP (S (S l)) x - dP l x))).
    + intros. cbn [Q]. field. lra.
    + rewrite dP_difference. field. lra.
    + apply (derivable_pt_lim_scal (fun x => P (S (S l)) x - P l x)).
      apply (derivable_pt_lim_minus (P (S (S l))) (P l)); apply P_derivative.
Qed.
Lemma Q_ends : forall l, Q l 1 - Q l (-1) = if Nat.eqb l 0 then 2 else 0.
Proof.
  intros [|l]; cbn [Q Nat.eqb].
  - ring.
  - rewrite !P_one, !P_minus_one, !sg_S. pose proof (pos_INR l). field. lra.
Qed.
Lemma same_integral : forall F G f a b, a <= b -> primitive F f a b -> primitive G f a b -> F b - F a = G b - G a.
Proof.
  intros F G f a b [L|<-] HF HG; [|ring].
  destruct (MVT_cor2 (fun x => F x - G x) (fun x => f x - f x) a b L) as (c & E & _).
  - intros c C. apply (derivable_pt_lim_minus F G); [apply HF|apply HG]; exact C.
  - lra.
Qed.
Lemma total_derivative : forall m (F f : nat -> R -> R) x, (forall k, (k < m)%nat -> derivable_pt_lim (F k) x (f k x)) ->
  derivable_pt_lim (fun y => total m (fun k => F k y)) x (total m (fun k => f k x)).
Proof.
  induction m; intros F f x H.
  - apply derivable_pt_lim_const.
  - apply (derivable_pt_lim_plus (fun y => total m (fun k => F k y)) (F m)); [apply IHm; intros; apply H; lia|apply H; lia].
Qed.
Lemma span_integral : forall d f F, span d f -> primitive F f (-1) 1 ->
  exists c, (forall x, f x = total (S d) (fun l => c l * P l x)) /\ F 1 - F (-1) = 2 * c 0%nat.
Proof.
  intros d f F (c & H) PF. exists c. split; [exact H|].
  rewrite (same_integral F (fun x => total (S d) (fun l => c l * Q l x)) f (-1) 1 ltac:(lra) PF).
  - rewrite (total_first d (fun l => c l * Q l 1)), (total_first d (fun l => c l * Q l (-1))).
    rewrite (total_ext d (fun k => c (S k) * Q (S k) 1) (fun k => c (S k) * Q (S k) (-1))).
    + cbn [Q]. ring.
    + intros k _. pose proof (Q_ends (S k)) as E. cbn [Nat.eqb] in E. replace (Q (S k) 1) with (Q (S k) (-1)) by lra. reflexivity.
  - intros x _. rewrite H. apply (total_derivative (S d) (fun l y => c l * Q l y) (fun l y => c l * P l y)).
    intros k _. apply (derivable_pt_lim_scal (Q k)), Q_derivative.
Qed.
Lemma gauss : forall m x d f F, (forall i, (i < S m)%nat -> P (S m) (x i) = 0) ->
  (forall i j, (i < S m)%nat -> (j < S m)%nat -> x i = x j -> i = j) -> (d < 2 * S m)%nat -> span d f -> primitive F f (-1) 1 ->
  L m x f = F 1 - F (-1).
Proof.
  intros m x d f F RO DI Hd SF PF. destruct (span_integral d f F SF PF) as (c & H & ->).
  rewrite (L_ext m x f _ H). unfold L.
  rewrite (total_ext (S m) _ (fun i => total (S d) (fun l => c l * (weight m (x i) * P l (x i))))).
  2: { intros i _. rewrite <- total_scale. apply total_ext. intros. ring. }
  rewrite total_swap.
  rewrite (total_ext (S d) _ (fun l => c l * L m x (P l))) by (intros; apply total_scale).
  rewrite total_first, (L_P m x RO DI) by lia. rewrite (total_zero d).
  - cbn [Nat.eqb]. ring.
  - intros k Hk. rewrite (L_P m x RO DI) by lia. cbn [Nat.eqb]. ring.
Qed.

(** The loops of the code *)
Lemma loop_S : forall T n (f : nat -> T -> T) s, loop (S n) f s = f n (loop n f s).
Proof. reflexivity. Qed.
Lemma set1_at : forall T (a : nat -> T) i v, set1 a i v i = v.
Proof. intros. unfold set1. rewrite Nat.eqb_refl. reflexivity. Qed.
Lemma set1_off : forall T (a : nat -> T) i j v, j <> i -> set1 a i v j = a j.
Proof. intros T a i j v H. unfold set1. destruct (Nat.eqb_spec j i); [contradiction|reflexivity]. Qed.
Lemma normal_loop : forall at_ n xw,
  let r := gauss_leg_quad_with at_ n xw in
  (forall i, (i < n)%nat -> fst r i = - fst (at_ (2 * n) (n + i))%nat /\
    snd r i = 2 * (1 - fst (at_ (2 * n) (n + i))%nat * fst (at_ (2 * n) (n + i))%nat) /
              (INR (2 * n) * snd (at_ (2 * n) (n + i))%nat * (INR (2 * n) * snd (at_ (2 * n) (n + i))%nat))) /\
  (forall i, (n <= i)%nat -> fst r i = fst xw i /\ snd r i = snd xw i).
Proof.
  intros at_ n xw. unfold gauss_leg_quad_with. cbv zeta.
  match goal with |- context [loop n ?b xw] => set (body := b) end.
  enough (forall m, (forall i, (i < m)%nat -> fst (loop m body xw) i = - fst (at_ (2 * n) (n + i))%nat /\
    snd (loop m body xw) i = 2 * (1 - fst (at_ (2 * n) (n + i))%nat * fst (at_ (2 * n) (n + i))%nat) /
              (INR (2 * n) * snd (at_ (2 * n) (n + i))%nat * (INR (2 * n) * snd (at_ (2 * n) (n + i))%nat))) /\
    (forall i, (m <= i)%nat -> fst (loop m body xw) i = fst xw i /\ snd (loop m body xw) i = snd xw i)) as H by apply H.
  induction m as [|m [A B]]; [split; [intros; lia|intros; split; reflexivity]|].
  rewrite loop_S. unfold body at 1 3 5 7. destruct (loop m body xw) as [x w]. destruct (at_ (2 * n) (n + m))%nat as [y p] eqn:E.
  cbn [fst snd] in *. split.
  - intros i Hi. destruct (Nat.eq_dec i m) as [->|NE].
    + rewrite !set1_at, E. split; reflexivity.
    + rewrite !set1_off by exact NE. apply A. lia.
  - intros i Hi. rewrite !set1_off by lia. apply B. lia.
Qed.
(** the i-th and the i-th last entry *)
Definition front (n j : nat) : bool := Nat.ltb j (n - 1 - j).
Definition pick (n j : nat) : nat := if front n j then j else (n - 1 - j)%nat.
Lemma doubled_loop : forall at_ n xw,
  let r := gauss_leg_quad2_with at_ n xw in
  (forall j, (j < n)%nat -> let y := fst (at_ n (pick n j)) in let p := snd (at_ n (pick n j)) in
    fst r j = (if front n j then / 2 - / 2 * y else / 2 + / 2 * y) /\ snd r j = (1 - 2 * (/ 2 * y) * y) / (INR n * p * (INR n * p))) /\
  (forall j, (n <= j)%nat -> fst r j = fst xw j /\ snd r j = snd xw j).
Proof.
  intros at_ n xw. unfold gauss_leg_quad2_with. cbv zeta.
  match goal with |- context [loop _ ?b xw] => set (body := b) end.
  set (N := ((n + 1) / 2)%nat).
  assert (n <= 2 * N)%nat as HN by (unfold N; pose proof (Nat.div_mod (n + 1) 2 ltac:(lia)); pose proof (Nat.mod_upper_bound (n + 1) 2 ltac:(lia)); lia).
  assert (2 * N <= n + 1)%nat as HN2 by (unfold N; pose proof (Nat.div_mod (n + 1) 2 ltac:(lia)); lia).
  enough (forall m, (m <= N)%nat -> (forall j, (j < n)%nat -> (pick n j < m)%nat -> let y := fst (at_ n (pick n j)) in let p := snd (at_ n (pick n j)) in
      fst (loop m body xw) j = (if front n j then / 2 - / 2 * y else / 2 + / 2 * y) /\
      snd (loop m body xw) j = (1 - 2 * (/ 2 * y) * y) / (INR n * p * (INR n * p))) /\
    (forall j, (n <= j)%nat -> fst (loop m body xw) j = fst xw j /\ snd (loop m body xw) j = snd xw j)) as H.
  { destruct (H N (Nat.le_refl N)) as [A B]. split; [|exact B]. intros j Hj. apply A; [exact Hj|].
    unfold pick, front. destruct (Nat.ltb_spec j (n - 1 - j)); lia. }
  induction m as [|m IH]; intros Hm; [split; [intros; lia|intros; split; reflexivity]|].
  destruct (IH ltac:(lia)) as [A B].
  rewrite loop_S. unfold body at 1 3 5 7. destruct (loop m body xw) as [x w]. destruct (at_ n m) as [y p] eqn:E.
  cbn [fst snd] in *. split.
  - intros j Hj Hp. destruct (Nat.eq_dec (pick n j) m) as [P'|NE].
    + rewrite P', E. cbn [fst snd]. unfold pick in P'. destruct (front n j) eqn:FR.
      * subst m. unfold front in FR. apply Nat.ltb_lt in FR. rewrite (set1_off _ _ (n - 1 - j)) by lia. rewrite !set1_at.
        rewrite set1_off by lia. rewrite set1_at. split; reflexivity.
      * replace (n - 1 - m)%nat with j by lia. rewrite !set1_at. split; reflexivity.
    + assert (j <> m /\ j <> n - 1 - m)%nat as [J1 J2].
      { unfold pick, front in *. destruct (Nat.ltb_spec j (n - 1 - j)); lia. }
      rewrite !set1_off by assumption. apply A; [exact Hj|lia].
  - intros j Hj. rewrite !set1_off by lia. apply B. exact Hj.
Qed.
