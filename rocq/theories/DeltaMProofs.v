From Coq Require Import Reals Bool Arith Lia Lra.
From Verif Require Import DerivsModel DeltaMModel DeltaMSpec.
Open Scope R_scope.

(* ------------------------------------------------------------------------- *)
(** * Closed forms of the loops                                               *)

Definition share (gc : bool) (a : R) (r : nat) : R := if (r <? 4)%nat || gc then 1 / a else 1.
Definition rate (gc : bool) (f : R) (coef : nat -> nat -> R) (r j : nat) : R :=
  let a := 1 - f in
  if (r <? 4)%nat then (- two_j_1 j + (coef r j - two_j_1 j * f) / a) / a else if gc then coef r j / a / a else 0.
Definition inrows (allsix : bool) (r : nat) : bool := (r <? (if allsix then 6 else 1))%nat.

Ltac rowcase r := destruct r as [|[|[|[|[|[|r]]]]]].
Ltac loopcase n j := unfold set2; cbn [Nat.eqb andb];
  destruct (Nat.eqb_spec j n); destruct (Nat.ltb_spec j n); destruct (Nat.ltb_spec j (S n)); try lia; try subst j.

Lemma coef_closed : forall n allsix gc f coef old r j,
  delta_m_coef n allsix gc f coef old r j =
  if ((j <? n)%nat && inrows allsix r)
  then (if (r <? 4)%nat then (coef r j - two_j_1 j * f) / (1 - f) else if gc then coef r j / (1 - f) else coef r j)
  else old r j.
Proof.
  intros n allsix gc f coef old r j. unfold delta_m_coef, inrows. cbv zeta. induction n as [|n IH]; [reflexivity|].
  cbn [loop]. set (L := loop n _ old) in *. clearbody L.
  destruct allsix; [destruct gc|]; rowcase r; loopcase n j; cbn in IH |- *; auto.
Qed.
Lemma coef_l_closed : forall n allsix gc f f_l coef coef_l old r j,
  1 - f <> 0 ->
  delta_m_coef_l n allsix gc f f_l coef coef_l old r j =
  if ((j <? n)%nat && inrows allsix r)
  then share gc (1 - f) r * coef_l r j + f_l * rate gc f coef r j
  else old r j.
Proof.
  intros n allsix gc f f_l coef coef_l old r j NZ. unfold delta_m_coef_l, inrows, share, rate. cbv zeta.
  induction n as [|n IH]; [reflexivity|].
  cbn [loop]. set (L := loop n _ old) in *. clearbody L.
  destruct allsix; [destruct gc|]; rowcase r; loopcase n j; cbn in IH |- *; auto; try (field; assumption); ring.
Qed.
Lemma coef_zero_closed : forall n allsix out r j,
  coef_zero_loop n allsix out r j = if ((j <? n)%nat && inrows allsix r) then 0 else out r j.
Proof.
  intros n allsix out r j. unfold coef_zero_loop, inrows. cbv zeta. induction n as [|n IH]; [reflexivity|].
  cbn [loop]. set (L := loop n _ out) in *. clearbody L.
  destruct allsix; rowcase r; loopcase n j; cbn in IH |- *; auto.
Qed.
Definition rstep (gc : bool) (f : R) (coef out : nat -> nat -> R) (j r : nat) (s : (nat -> nat -> R) * R) : (nat -> nat -> R) * R :=
  (set2 (fst s) r j (fst s r j + out r j * share gc (1 - f) r), snd s + out r j * rate gc f coef r j).
Lemma rsteps : forall gc f coef out j m s,
  (forall p q, fst (loop m (rstep gc f coef out j) s) p q =
     if ((q =? j)%nat && (p <? m)%nat) then fst s p q + out p q * share gc (1 - f) p else fst s p q) /\
  snd (loop m (rstep gc f coef out j) s) = snd s + total m (fun r => out r j * rate gc f coef r j).
Proof.
  intros gc f coef out j m s. induction m as [|m [I1 I2]].
  - split; [intros p q; rewrite andb_false_r; reflexivity|cbn; ring].
  - cbn [loop]. set (L := loop m _ s) in *. clearbody L. split; unfold rstep at 1; cbn [fst snd].
    + intros p q. unfold set2. rewrite !I1.
      destruct (Nat.eqb_spec p m) as [->|]; destruct (Nat.eqb_spec q j) as [->|]; cbn [andb];
        repeat match goal with |- context [(?a <? ?b)%nat] => destruct (Nat.ltb_spec a b); try lia end; rewrite ?Nat.eqb_refl; auto.
    + rewrite I2. cbn [total]. ring.
Qed.
Lemma row_step : forall gc f coef out j r s, 1 - f <> 0 -> (r <? 4)%nat = true ->
  coef_a_row f coef out j r s = rstep gc f coef out j r s.
Proof.
  intros gc f coef out j r s NZ Hr. unfold coef_a_row, rstep, share, rate. cbv zeta. rewrite Hr. cbn [orb].
  f_equal; [f_equal; field; exact NZ|field; exact NZ].
Qed.
Lemma row56_step : forall gc f coef out j r s, 1 - f <> 0 -> (r <? 4)%nat = false ->
  coef_a_row56 gc f coef out j r s = rstep gc f coef out j r s.
Proof.
  intros gc f coef out j r s NZ Hr. unfold coef_a_row56, rstep, share, rate. cbv zeta. rewrite Hr. cbn [orb].
  destruct gc; [f_equal; [f_equal; field; exact NZ|field; exact NZ]|f_equal; [f_equal; ring|ring]].
Qed.
Lemma coef_a_steps : forall n allsix gc f coef out s, 1 - f <> 0 ->
  coef_a_loop n allsix gc f coef out s = loop n (fun j => loop (if allsix then 6 else 1) (rstep gc f coef out j)) s.
Proof.
  intros n allsix gc f coef out s NZ. unfold coef_a_loop. induction n as [|n IH]; [reflexivity|].
  cbn [loop]. rewrite IH. set (L := loop n _ s). clearbody L. clear IH. cbv zeta.
  destruct allsix; cbn [loop].
  - rewrite !(row56_step gc), !(row_step gc) by first [exact NZ|reflexivity]. reflexivity.
  - apply row_step; [exact NZ|reflexivity].
Qed.
Lemma coef_a_closed : forall n allsix gc f coef out ca fa,
  1 - f <> 0 ->
  (forall r j, fst (coef_a_loop n allsix gc f coef out (ca, fa)) r j =
     if ((j <? n)%nat && inrows allsix r) then ca r j + out r j * share gc (1 - f) r else ca r j) /\
  snd (coef_a_loop n allsix gc f coef out (ca, fa)) =
     fa + total n (fun j => total (if allsix then 6 else 1) (fun r => out r j * rate gc f coef r j)).
Proof.
  intros n allsix gc f coef out ca fa NZ. rewrite coef_a_steps by exact NZ. unfold inrows. induction n as [|n [I1 I2]].
  - split; [intros; reflexivity|cbn; ring].
  - cbn [loop]. set (L := loop n _ (ca, fa)) in *. clearbody L.
    destruct (rsteps gc f coef out n (if allsix then 6%nat else 1%nat) L) as [Q1 Q2]. split.
    + intros r j. rewrite Q1, I1.
      destruct (Nat.eqb_spec j n) as [->|]; cbn [andb];
        repeat match goal with |- context [(?a <? ?b)%nat] => destruct (Nat.ltb_spec a b); try lia end; reflexivity.
    + rewrite Q2, I2. cbn [total]. ring.
Qed.

Lemma total_ext : forall n g h, (forall k, (k < n)%nat -> g k = h k) -> total n g = total n h.
Proof. induction n as [|n IH]; intros g h E; cbn; [reflexivity|]. rewrite (IH g h), (E n); auto. Qed.
Lemma total_plus : forall n g h, total n (fun k => g k + h k) = total n g + total n h.
Proof. induction n as [|n IH]; intros g h; cbn; [ring|]. rewrite IH. ring. Qed.
Lemma total_scale : forall n c g, total n (fun k => c * g k) = c * total n g.
Proof. induction n as [|n IH]; intros c g; cbn; [ring|]. rewrite IH. ring. Qed.
Lemma total_zero : forall n g, (forall k, (k < n)%nat -> g k = 0) -> total n g = 0.
Proof. induction n as [|n IH]; intros g E; cbn; [reflexivity|]. rewrite IH, (E n); auto. ring. Qed.

(* ------------------------------------------------------------------------- *)
(** * Values                                                                  *)

Lemma omega_eq : forall f w, 1 - w * f <> 0 -> delta_m_omega f w * (1 - w * f) = (1 - f) * w.
Proof. intros f w H. unfold delta_m_omega. cbv zeta. field. exact H. Qed.
Lemma scattering_eq : forall f w t, 1 - w * f <> 0 -> delta_m_ltau f w t * delta_m_omega f w = (1 - f) * (t * w).
Proof. intros f w t H. unfold delta_m_omega, delta_m_ltau. cbv zeta. field. exact H. Qed.
Lemma absorption_eq : forall f w t, 1 - w * f <> 0 -> delta_m_ltau f w t * (1 - delta_m_omega f w) = t * (1 - w).
Proof. intros f w t H. unfold delta_m_omega, delta_m_ltau. cbv zeta. field. exact H. Qed.
Lemma wf_pos : forall f w, 0 <= f < 1 -> 0 <= w <= 1 -> 0 < 1 - w * f.
Proof. intros f w F W. nra. Qed.
Lemma omega_range : forall f w, 0 <= f < 1 -> 0 <= w <= 1 -> 0 <= delta_m_omega f w <= w.
Proof.
  intros f w F W. pose proof (wf_pos f w F W) as P. pose proof (omega_eq f w ltac:(lra)) as E.
  set (o := delta_m_omega f w) in *. clearbody o. split.
  - apply Rnot_lt_le. intros N. assert (0 <= (1 - f) * w) by nra. nra.
  - apply Rnot_lt_le. intros N. assert (w * (1 - w * f) < o * (1 - w * f)) by nra. assert (0 <= w * f) by nra. assert (0 <= (w * f) * (1 - w)) by (apply Rmult_le_pos; lra). lra.
Qed.
Lemma ltau_range : forall f w t, 0 <= f < 1 -> 0 <= w <= 1 -> 0 <= t -> 0 <= delta_m_ltau f w t <= t.
Proof. intros f w t F W T. unfold delta_m_ltau. cbv zeta. pose proof (wf_pos f w F W). assert (0 <= w * f) by nra. nra. Qed.

(* ------------------------------------------------------------------------- *)
(** * Derivatives                                                             *)

Lemma dl_eq : forall g x l l', derivable_pt_lim g x l -> l = l' -> derivable_pt_lim g x l'.
Proof. intros; subst; assumption. Qed.
Lemma dl_plus : forall g h x a b, derivable_pt_lim g x a -> derivable_pt_lim h x b -> derivable_pt_lim (fun t => g t + h t) x (a + b).
Proof. intros. exact (derivable_pt_lim_plus g h x a b H H0). Qed.
Lemma dl_minus : forall g h x a b, derivable_pt_lim g x a -> derivable_pt_lim h x b -> derivable_pt_lim (fun t => g t - h t) x (a - b).
Proof. intros. exact (derivable_pt_lim_minus g h x a b H H0). Qed.
Lemma dl_mult : forall g h x a b, derivable_pt_lim g x a -> derivable_pt_lim h x b -> derivable_pt_lim (fun t => g t * h t) x (a * h x + g x * b).
Proof. intros. exact (derivable_pt_lim_mult g h x a b H H0). Qed.
Lemma dl_div : forall g h x a b, derivable_pt_lim g x a -> derivable_pt_lim h x b -> h x <> 0 ->
  derivable_pt_lim (fun t => g t / h t) x ((a * h x - b * g x) / (h x * h x)).
Proof. intros. exact (derivable_pt_lim_div g h x a b H H0 H1). Qed.
Lemma dl_const : forall k x, derivable_pt_lim (fun _ => k) x 0.
Proof. intros. exact (derivable_pt_lim_const k x). Qed.

Section Path.
Variables (f w g T : R -> R) (t0 f_l w_l g_l T_l : R).
Hypothesis DF : derivable_pt_lim f t0 f_l.
Hypothesis DW : derivable_pt_lim w t0 w_l.
Hypothesis DG : derivable_pt_lim g t0 g_l.
Hypothesis DT : derivable_pt_lim T t0 T_l.
Lemma g_deriv : 1 - f t0 <> 0 ->
  derivable_pt_lim (fun t => delta_m_g (f t) (g t)) t0 (delta_m_g_l (f t0) (g t0) f_l g_l).
Proof.
  intros NZ. unfold delta_m_g, delta_m_g_l. cbv zeta. eapply dl_eq.
  - apply dl_div; [apply dl_minus; [exact DG|exact DF]|apply dl_minus; [apply dl_const|exact DF]|exact NZ].
  - cbv beta. field. exact NZ.
Qed.
Lemma omega_deriv : 1 - w t0 * f t0 <> 0 ->
  derivable_pt_lim (fun t => delta_m_omega (f t) (w t)) t0 (delta_m_omega_l (f t0) f_l (w t0) w_l).
Proof.
  intros NZ. unfold delta_m_omega, delta_m_omega_l. cbv zeta. eapply dl_eq.
  - apply dl_mult; [apply dl_div; [apply dl_minus; [apply dl_const|exact DF]|
      apply dl_minus; [apply dl_const|apply dl_mult; [exact DW|exact DF]]|exact NZ]|exact DW].
  - cbv beta. field. exact NZ.
Qed.
Lemma ltau_deriv :
  derivable_pt_lim (fun t => delta_m_ltau (f t) (w t) (T t)) t0 (delta_m_ltau_l (f t0) f_l (w t0) w_l (T t0) T_l).
Proof.
  unfold delta_m_ltau, delta_m_ltau_l. cbv zeta. eapply dl_eq.
  - apply dl_mult; [apply dl_minus; [apply dl_const|apply dl_mult; [exact DW|exact DF]]|exact DT].
  - cbv beta. ring.
Qed.
Lemma tms_deriv : 1 - f t0 * w t0 <> 0 ->
  derivable_pt_lim (fun t => n_t_tms_scaling (f t) (w t)) t0 (n_t_tms_scaling_l (f t0) f_l (w t0) w_l).
Proof.
  intros NZ. unfold n_t_tms_scaling, n_t_tms_scaling_l. cbv zeta. eapply dl_eq.
  - apply dl_div; [exact DW|apply dl_minus; [apply dl_const|apply dl_mult; [exact DF|exact DW]]|exact NZ].
  - cbv beta. field. exact NZ.
Qed.
End Path.

Lemma coef_deriv : forall n allsix gc f f_l t0 coef coef_l old old_l r j,
  derivable_pt_lim f t0 f_l -> 1 - f t0 <> 0 -> inrows allsix r = true -> (j < n)%nat ->
  derivable_pt_lim (fun t => coef t r j) t0 (coef_l r j) ->
  derivable_pt_lim (fun t => delta_m_coef n allsix gc (f t) (coef t) old r j) t0
    (delta_m_coef_l n allsix gc (f t0) f_l (coef t0) coef_l old_l r j).
Proof.
  intros n allsix gc f f_l t0 coef coef_l old old_l r j DF NZ IR L DC.
  rewrite coef_l_closed by exact NZ. rewrite IR. destruct (Nat.ltb_spec j n); [|lia]. cbn [andb].
  apply (derivable_pt_lim_ext (fun t =>
    if (r <? 4)%nat then (coef t r j - two_j_1 j * f t) / (1 - f t) else if gc then coef t r j / (1 - f t) else coef t r j)).
  { intros t. rewrite coef_closed, IR. destruct (Nat.ltb_spec j n); [reflexivity|lia]. }
  unfold share, rate. cbv zeta. destruct (r <? 4)%nat; [|destruct gc]; cbn [orb].
  - eapply dl_eq.
    + apply dl_div; [apply dl_minus; [exact DC|apply dl_mult; [apply dl_const|exact DF]]|apply dl_minus; [apply dl_const|exact DF]|exact NZ].
    + cbv beta. field. exact NZ.
  - eapply dl_eq.
    + apply dl_div; [exact DC|apply dl_minus; [apply dl_const|exact DF]|exact NZ].
    + cbv beta. field. exact NZ.
  - eapply dl_eq; [exact DC|ring].
Qed.
