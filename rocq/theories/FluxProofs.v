(** Proofs about fluxes: the budget of a layer and of a stack of layers. *)
From Coq Require Import Reals Bool Arith Lia Lra.
From Verif Require Import DeltaMSpec DeltaMProofs AddingModel AddingSpec AddingMat SingleProofs BeamProofs EigModel EigSpec AtmSpec FluxSpec.
Open Scope R_scope.

Lemma pi_ne : PI <> 0. Proof. pose proof PI_RGT_0. lra. Qed.

Lemma total_opp : forall n f, total n (fun i => - f i) = - total n f.
Proof. induction n as [|n IH]; intro f; cbn [total]; [ring|]. rewrite IH. ring. Qed.
(** Weighted sums of what is scattered: of the light of a stream everything but the share 1 - omega arrives somewhere. *)
Lemma total_scattered : forall n w c (Ps Po : mat) (u v : vec), (forall j, (j < n)%nat -> total n (fun i => w i * (Ps i j + Po i j)) = 2) ->
  total n (fun i => w i * (c * total n (fun j => w j * (Ps i j * u j + Po i j * v j)) + c * total n (fun j => w j * (Ps i j * v j + Po i j * u j)))) =
  2 * c * total n (fun j => w j * (u j + v j)).
Proof.
  intros n w c Ps Po u v E.
  transitivity (total n (fun i => total n (fun j => c * (w j * (u j + v j)) * (w i * (Ps i j + Po i j))))).
  - apply total_ext. intros i _. rewrite <- !total_scale, <- total_plus, <- total_scale. apply total_ext. intros j _. ring.
  - rewrite total_swap, <- total_scale. apply total_ext. intros j Hj. rewrite total_scale, (E j Hj). ring.
Qed.

Section Layer.
Variables (n : nat) (solar thermal : bool) (x : slab) (mu_0 : R).
Hypothesis Fair : fair n solar thermal x.

Definition lost (t : R) : R := (mu_0 * as_0 x - 1) * beam_at solar x t.
Lemma beam_deriv : forall t, derivable_pt_lim (beam_at solar x) t (- as_0 x * beam_at solar x t).
Proof using.
  clear Fair. intro t. unfold beam_at. destruct solar.
  - eapply dl_eq; [apply dl_scal, dl_scal, (dl_exp (fun s => - as_0 x * s)), dl_scal, dl_id|cbv beta; ring].
  - eapply dl_eq; [apply dl_const|ring].
Qed.
Lemma flux_deriv : forall (B : beam) d t, (forall i, (i < n)%nat -> derivable_pt_lim (B i) t (d i)) ->
  derivable_pt_lim (fun s => flux_of n (qx x) (qw x) (fun i => B i s)) t (flux_of n (qx x) (qw x) d).
Proof using.
  intros B d t H. unfold flux_of. apply dl_scal. apply (dl_total n (fun i s => qw x i * (qx x i * B i s))). intros i Hi. apply dl_scal, dl_scal, H, Hi.
Qed.

(** The divergence of the net flux *)
Lemma net_deriv : forall Ip Im t, lit n solar thermal x Ip Im -> 0 <= t <= ltau x ->
  derivable_pt_lim (net n solar mu_0 x Ip Im) t (absorbed n solar thermal x Ip Im t + lost t).
Proof.
  intros Ip Im t L Ht. destruct Fair as [Z [Q [Sc [So Th]]]]. unfold lit in L. rewrite Z in L. unfold net.
  set (Jp := source solar thermal (omega x) (flux0 x) (btran x) (as_0 x) (planck0 x) (planck1 x) (ltau x) (Q_pm x)) in L.
  set (Jm := source solar thermal (omega x) (flux0 x) (btran x) (as_0 x) (planck0 x) (planck1 x) (ltau x) (Q_mm x)) in L.
  set (c := (1 + 1) / 4 * omega x) in L. set (sc := scattered n (qw x) c (P_pp x) (P_mp x)).
  eapply dl_eq.
  - apply dl_minus; [|apply dl_plus; [|apply dl_scal, beam_deriv]].
    + apply (flux_deriv Ip (fun i => (Ip i t - sc Ip Im i t - Jp i t) / qx x i)). intros i Hi. apply (L i t Hi Ht).
    + apply (flux_deriv Im (fun i => (sc Im Ip i t + Jm i t - Im i t) / qx x i)). intros i Hi. apply (L i t Hi Ht).
  - unfold flux_of.
    rewrite (total_ext n (fun i => qw x i * (qx x i * ((Ip i t - sc Ip Im i t - Jp i t) / qx x i))) (fun i => qw x i * (Ip i t - sc Ip Im i t - Jp i t))).
    2:{ intros i Hi. field. apply Q, Hi. }
    rewrite (total_ext n (fun i => qw x i * (qx x i * ((sc Im Ip i t + Jm i t - Im i t) / qx x i))) (fun i => qw x i * (sc Im Ip i t + Jm i t - Im i t))).
    2:{ intros i Hi. field. apply Q, Hi. }
    assert (total n (fun i => qw x i * (sc Ip Im i t + sc Im Ip i t)) = omega x * total n (fun j => qw x j * (Ip j t + Im j t))) as E1.
    { unfold sc, scattered. rewrite (total_scattered n (qw x) c (P_pp x) (P_mp x) (fun j => Ip j t) (fun j => Im j t) Sc). unfold c. field. }
    assert (2 * PI * total n (fun i => qw x i * (Jp i t + Jm i t)) = omega x * beam_at solar x t + 4 * PI * (1 - omega x) * emission_at thermal x t) as E2.
    { unfold Jp, Jm, source, beam_at, emission_at. destruct solar, thermal.
      - rewrite (total_ext n _ (fun i => flux0 x / (4 * PI) * omega x * (btran x * exp (- as_0 x * t)) * (qw x i * (Q_pm x i + Q_mm x i)) +
          2 * ((1 - omega x) * (planck0 x + (planck1 x - planck0 x) * t / ltau x)) * qw x i)) by (intros; ring).
        rewrite total_plus, !total_scale, (So eq_refl), (Th eq_refl). set (B := planck0 x + (planck1 x - planck0 x) * t / ltau x). field. exact pi_ne.
      - rewrite (total_ext n _ (fun i => flux0 x / (4 * PI) * omega x * (btran x * exp (- as_0 x * t)) * (qw x i * (Q_pm x i + Q_mm x i)))) by (intros; ring).
        rewrite !total_scale, (So eq_refl). field. exact pi_ne.
      - rewrite (total_ext n _ (fun i => 2 * ((1 - omega x) * (planck0 x + (planck1 x - planck0 x) * t / ltau x)) * qw x i)) by (intros; ring).
        rewrite !total_scale, (Th eq_refl). ring.
      - rewrite total_zero by (intros; ring). ring. }
    assert (total n (fun i => qw x i * (Ip i t - sc Ip Im i t - Jp i t)) - total n (fun i => qw x i * (sc Im Ip i t + Jm i t - Im i t)) =
            total n (fun i => qw x i * (Ip i t + Im i t)) - total n (fun i => qw x i * (sc Ip Im i t + sc Im Ip i t)) - total n (fun i => qw x i * (Jp i t + Jm i t))) as E3.
    { unfold Rminus. rewrite <- !total_opp, <- !total_plus. apply total_ext. intros i _. ring. }
    rewrite E1 in E3. unfold absorbed, lost, mean_radiance, mean_of. set (e := emission_at thermal x t) in *. set (b := beam_at solar x t) in *.
    assert (2 * PI * total n (fun i => qw x i * Ip i t) + 2 * PI * total n (fun i => qw x i * Im i t) = 2 * PI * total n (fun i => qw x i * (Ip i t + Im i t))) as E4.
    { rewrite <- Rmult_plus_distr_l, <- total_plus. f_equal. apply total_ext. intros i _. ring. }
    set (p := total n (fun i => qw x i * (Ip i t + Im i t))) in *.
    match type of E3 with ?A - ?B = _ => transitivity (2 * PI * (A - B) + mu_0 * as_0 x * b); [ring|] end.
    rewrite E3.
    match type of E2 with _ * ?J = _ => transitivity (2 * PI * (1 - omega x) * p - 2 * PI * J + mu_0 * as_0 x * b); [ring|] end.
    rewrite E2.
    match type of E4 with ?A + ?B = _ => transitivity ((1 - omega x) * (A + B + b - 4 * PI * e) + (mu_0 * as_0 x - 1) * b); [rewrite E4; ring|] end.
    field. exact pi_ne.
Qed.
End Layer.

(** Functions with the same derivative change by the same amount. *)
Lemma same_change : forall (f g : R -> R) d L, 0 <= L -> (forall t, 0 <= t <= L -> derivable_pt_lim f t (d t)) -> (forall t, 0 <= t <= L -> derivable_pt_lim g t (d t)) ->
  f L - f 0 = g L - g 0.
Proof.
  intros f g d L LP F G. destruct (Req_dec L 0) as [->|N]; [ring|].
  destruct (MVT_cor2 (fun t => f t - g t) (fun _ => 0) 0 L ltac:(lra)) as (c & E & _); [|lra].
  intros t Ht. eapply dl_eq; [apply dl_minus; [apply F|apply G]; exact Ht|ring].
Qed.
Lemma grows : forall (f d : R -> R) L, 0 <= L -> (forall t, 0 <= t <= L -> derivable_pt_lim f t (d t)) -> (forall t, 0 <= t <= L -> 0 <= d t) -> f 0 <= f L.
Proof.
  intros f d L LP F P. destruct (Req_dec L 0) as [->|N]; [lra|].
  destruct (MVT_cor2 f d 0 L ltac:(lra) F) as (c & E & Hc). pose proof (P c ltac:(lra)). nra.
Qed.

(** The stack: what the net flux gains from the top to the bottom. *)
Definition directions (m : nat) (xs : nat -> slab) : Prop := forall k, (k <= m)%nat -> qx (xs k) = qx (xs 0%nat) /\ qw (xs k) = qw (xs 0%nat).
Section Stack.
Variables (n : nat) (solar thermal : bool) (xs : nat -> slab) (mu_0 : R).
Definition excess (x : slab) : R := (mu_0 - 1 / as_0 x) * (beam_at solar x 0 - beam_at solar x (ltau x)).

Lemma layer_budget : forall x Ip Im H, fair n solar thermal x -> 0 <= ltau x -> (solar = true -> as_0 x <> 0) -> lit n solar thermal x Ip Im ->
  (forall t, 0 <= t <= ltau x -> derivable_pt_lim H t (absorbed n solar thermal x Ip Im t)) ->
  net n solar mu_0 x Ip Im (ltau x) - net n solar mu_0 x Ip Im 0 = H (ltau x) - H 0 + excess x.
Proof using.
  intros x Ip Im H Fa LP As L HD.
  rewrite (same_change (net n solar mu_0 x Ip Im) (fun t => H t + (1 / as_0 x - mu_0) * beam_at solar x t)
    (fun t => absorbed n solar thermal x Ip Im t + lost solar x mu_0 t) (ltau x) LP).
  - unfold excess. ring.
  - intros t Ht. apply (net_deriv n solar thermal x mu_0 Fa Ip Im t L Ht).
  - intros t Ht. eapply dl_eq; [apply dl_plus; [apply HD, Ht|apply dl_scal, beam_deriv]|]. unfold lost. f_equal.
    destruct solar; [specialize (As eq_refl); field; exact As|unfold beam_at; ring].
Qed.

Variable m : nat.
Variables (t : vec) (Ip Im : nat -> beam).
Hypothesis Dirs : directions m xs.
Hypothesis Light : between n m solar thermal xs t Ip Im.
Hypothesis Goes : solar = true -> beam_goes_on m xs.

Lemma joined : forall k, (k < m)%nat -> net n solar mu_0 (xs (S k)) (Ip (S k)) (Im (S k)) 0 = net n solar mu_0 (xs k) (Ip k) (Im k) (ltau (xs k)).
Proof.
  intros k Hk. destruct Light as (_ & J & _). destruct (Dirs k ltac:(lia)) as [X1 W1]. destruct (Dirs (S k) ltac:(lia)) as [X2 W2].
  unfold net, flux_of. rewrite X1, X2, W1, W2. f_equal; [|f_equal].
  - f_equal. apply total_ext. intros i Hi. rewrite (proj2 (J k i Hk Hi)). reflexivity.
  - f_equal. apply total_ext. intros i Hi. rewrite (proj1 (J k i Hk Hi)). reflexivity.
  - f_equal. unfold beam_at. destruct solar; [|reflexivity]. destruct (Goes eq_refl k Hk) as [-> ->]. rewrite Rmult_0_r, exp_0. ring.
Qed.
Hypothesis Fair : forall k, (k <= m)%nat -> fair n solar thermal (xs k) /\ 0 <= ltau (xs k) /\ (solar = true -> as_0 (xs k) <> 0).

Lemma stack_budget : forall H, integrals n m solar thermal xs Ip Im H -> forall k, (k <= m)%nat ->
  net n solar mu_0 (xs k) (Ip k) (Im k) (ltau (xs k)) - net n solar mu_0 (xs 0%nat) (Ip 0%nat) (Im 0%nat) 0 =
  total (S k) (fun k => H k (ltau (xs k)) - H k 0 + excess (xs k)).
Proof.
  intros H HI k. induction k as [|k IH]; intro Hk; destruct (Fair _ Hk) as (Fa & LP & As); cbn [total].
  - rewrite (layer_budget _ _ _ (H 0%nat) Fa LP As (proj1 Light 0%nat Hk)); [ring|]. intros s Hs. apply HI; assumption.
  - cbn [total] in IH. rewrite <- IH by lia. rewrite <- (joined k) by lia.
    pose proof (layer_budget _ _ _ (H (S k)) Fa LP As (proj1 Light (S k) Hk) (fun s Hs => HI (S k) s Hk Hs)). lra.
Qed.
End Stack.
