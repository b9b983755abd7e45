(** What the arrays hold after the call. *)
From Coq Require Import Reals Bool Arith Lia Lra.
From Verif Require Import DeltaMSpec DeltaMProofs AddingModel AddingSpec DerivsModel FluxSpec FluxModel.
Open Scope R_scope.

Lemma loop_total : forall n f, loop n (fun i a => a + f i) 0 = total n f.
Proof. induction n as [|n IH]; intro f; cbn [loop total]; [reflexivity|]. rewrite IH. reflexivity. Qed.
Lemma total_more : forall n k f, (forall i, (n <= i)%nat -> (i < n + k)%nat -> f i = 0) -> total (n + k) f = total n f.
Proof.
  induction k as [|k IH]; intros f Z; [rewrite Nat.add_0_r; reflexivity|]. rewrite Nat.add_succ_r. cbn [total].
  rewrite IH by (intros; apply Z; lia). rewrite Z by lia. ring.
Qed.
(** The loops over the levels *)
Section Levels.
Variables (h : handle) (i_p i_m : nat -> array).
Definition mp j := Some (radiance_to_mean (n_quad_v h) (qx_v h) (qw_v h) (i_p j)).
Definition mm j := lift2 Rplus (Some (radiance_to_mean (n_quad_v h) (qx_v h) (qw_v h) (i_m j))) (beam_mean h j).
Definition fp j := Some (radiance_to_flux (n_quad_v h) (qx_v h) (qw_v h) (i_p j)).
Definition fm j := lift2 Rplus (Some (radiance_to_flux (n_quad_v h) (qx_v h) (qw_v h) (i_m j))) (beam_flux h j).
Definition pick (on : bool) (new old : nat -> option R) (j : nat) : option R := if (on && (j <? n_ulevels h)%nat)%bool then new j else old j.
Lemma step_put : forall (on : bool) new (a : nat -> option R) u (old : nat -> option R) j,
  (forall j, a j = if (on && (j <? u)%nat)%bool then new j else old j) ->
  (if on then put a u (new u) else a) j = if (on && (j <? S u)%nat)%bool then new j else old j.
Proof.
  intros on new a u old j H. destruct on; [|apply H]. unfold put. destruct (Nat.eqb_spec j u) as [->|N].
  - destruct (Nat.ltb_spec u (S u)); [reflexivity|lia].
  - rewrite H. cbn [andb]. destruct (Nat.ltb_spec j u), (Nat.ltb_spec j (S u)); (reflexivity || lia).
Qed.
Lemma means_all : forall o j, let o' := means h i_p i_m o in
  mean_p o' j = pick (upwelling h) mp (mean_p o) j /\ mean_m o' j = pick (downwelling h) mm (mean_m o) j /\
  flux_p o' j = flux_p o j /\ flux_m o' j = flux_m o j /\ flux_div o' = flux_div o /\
  mean_p_l o' = mean_p_l o /\ mean_m_l o' = mean_m_l o /\ flux_p_l o' = flux_p_l o /\ flux_m_l o' = flux_m_l o /\ flux_div_l o' = flux_div_l o.
Proof.
  intros o. unfold means, pick. induction (n_ulevels h) as [|u IH]; intro j.
  - cbn [loop]. rewrite !andb_false_r. repeat split; reflexivity.
  - cbn [loop]. cbv zeta in *. set (o1 := loop u _ o) in *. cbn [with_mean mean_p mean_m flux_p flux_m flux_div mean_p_l mean_m_l flux_p_l flux_m_l flux_div_l].
    refine (conj _ (conj _ (proj2 (proj2 (IH j))))).
    + apply (step_put (upwelling h) mp (mean_p o1) u (mean_p o) j). intro k. apply (IH k).
    + apply (step_put (downwelling h) mm (mean_m o1) u (mean_m o) j). intro k. apply (IH k).
Qed.
Lemma fluxes_all : forall o j, let o' := fluxes h i_p i_m o in
  flux_p o' j = pick (upwelling h) fp (flux_p o) j /\ flux_m o' j = pick (downwelling h) fm (flux_m o) j /\
  mean_p o' j = mean_p o j /\ mean_m o' j = mean_m o j /\ flux_div o' = flux_div o /\
  mean_p_l o' = mean_p_l o /\ mean_m_l o' = mean_m_l o /\ flux_p_l o' = flux_p_l o /\ flux_m_l o' = flux_m_l o /\ flux_div_l o' = flux_div_l o.
Proof.
  intros o. unfold fluxes, pick. induction (n_ulevels h) as [|u IH]; intro j.
  - cbn [loop]. rewrite !andb_false_r. repeat split; reflexivity.
  - cbn [loop]. cbv zeta in *. set (o1 := loop u _ o) in *. cbn [with_flux mean_p mean_m flux_p flux_m flux_div mean_p_l mean_m_l flux_p_l flux_m_l flux_div_l].
    refine (conj _ (conj _ (proj2 (proj2 (IH j))))).
    + apply (step_put (upwelling h) fp (flux_p o1) u (flux_p o) j). intro k. apply (IH k).
    + apply (step_put (downwelling h) fm (flux_m o1) u (flux_m o) j). intro k. apply (IH k).
Qed.
Lemma divergence_nothing : forall o, divergence h o = o.
Proof. intro o. unfold divergence. induction (n_ulevels h) as [|u IH]; [reflexivity|exact IH]. Qed.
Lemma solution_all : forall wm wf wd o j, let o' := solution h wm wf wd i_p i_m o in
  mean_p o' j = pick (wm && upwelling h) mp (mean_p o) j /\ mean_m o' j = pick (wm && downwelling h) mm (mean_m o) j /\
  flux_p o' j = pick (wf && upwelling h) fp (flux_p o) j /\ flux_m o' j = pick (wf && downwelling h) fm (flux_m o) j /\ flux_div o' = flux_div o /\
  mean_p_l o' = mean_p_l o /\ mean_m_l o' = mean_m_l o /\ flux_p_l o' = flux_p_l o /\ flux_m_l o' = flux_m_l o /\ flux_div_l o' = flux_div_l o.
Proof.
  intros wm wf wd o j. unfold solution. cbv zeta.
  assert (forall o, (if wd then divergence h o else o) = o) as -> by (intro; destruct wd; [apply divergence_nothing|reflexivity]).
  set (o1 := if wm then means h i_p i_m o else o).
  assert (mean_p o1 j = pick (wm && upwelling h) mp (mean_p o) j /\ mean_m o1 j = pick (wm && downwelling h) mm (mean_m o) j /\
    flux_p o1 j = flux_p o j /\ flux_m o1 j = flux_m o j /\ flux_div o1 = flux_div o /\
    mean_p_l o1 = mean_p_l o /\ mean_m_l o1 = mean_m_l o /\ flux_p_l o1 = flux_p_l o /\ flux_m_l o1 = flux_m_l o /\ flux_div_l o1 = flux_div_l o) as (A1 & A2 & A3 & A4 & A5 & A6 & A7 & A8 & A9 & A10).
  { unfold o1. destruct wm; [apply means_all|]. repeat split; reflexivity. }
  destruct wf; cbn [andb].
  - destruct (fluxes_all o1 j) as (B1 & B2 & B3 & B4 & B5 & B6 & B7 & B8 & B9 & B10). cbv zeta in *.
    rewrite B1, B2, B3, B4, B5, B6, B7, B8, B9, B10. unfold pick in *. rewrite A1, A2, A3, A4, A5, A6, A7, A8, A9, A10. repeat split; reflexivity.
  - unfold pick at 3 4. cbn [andb]. repeat split; assumption.
Qed.
End Levels.
