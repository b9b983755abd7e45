(** C59: the derivatives that the solver by successive orders reports are those of the radiances that it reports. *)
From Coq Require Import Reals Bool Arith List ZArith Lia Lra.
From Verif Require Import Base DeltaMSpec DeltaMProofs BeamProofs SingleProofs AddingModel AddingSpec AddingCalls EigDProofs TwoModel ViewDProofs SosSpec SosModel SosProofs SosProperties SosDSpec SosDModel SosDProofs.
Import ListNotations.
Open Scope R_scope.

Lemma finite_ok : forall md n, finite md n = true -> forall q, (q < n)%nat -> s_qx md q <> 0.
Proof.
  intros md n H q Hq E. unfold finite in H. rewrite forallb_forall in H. specialize (H q ltac:(apply in_seq; lia)). cbv beta in H. destruct (Req_EM_T (s_qx md q) 0); [discriminate|contradiction].
Qed.
(** While no layer is at a thickness at which the number of its parts jumps, and no order is at the tolerance, the radiances around the point are
    computed, and the reported derivatives are theirs. *)
Theorem C59_derivatives : forall X p dl mk n_layers m_quad n_stokes vector max_os max_tau tol r r_l, 0 < max_tau -> (0 < n_stokes)%nat ->
  varies (S m_quad * n_stokes) n_layers mk X p dl -> vector = true \/ scalar (S m_quad * n_stokes) n_layers (X p) ->
  between max_tau n_layers (X p) -> decided tol max_tau n_layers m_quad n_stokes max_os (X p) ->
  rtm_sos (X p) n_layers m_quad n_stokes vector max_os max_tau tol = Answer r -> rtm_sos_l (X p) dl mk n_layers m_quad n_stokes vector max_os max_tau tol = Answer r_l ->
  exists A, around p (fun s => rtm_sos (X s) n_layers m_quad n_stokes vector max_os max_tau tol = Answer (A s)) /\ A p = r /\
    forall q, (q < S m_quad * n_stokes)%nat -> derivable_pt_lim (fun s => o_up_top (A s) q) p (o_up_top r_l q) /\ derivable_pt_lim (fun s => o_down_bottom (A s) q) p (o_down_bottom r_l q) /\
      derivable_pt_lim (fun s => o_down_top (A s) q) p (o_down_top r_l q) /\ derivable_pt_lim (fun s => o_up_bottom (A s) q) p (o_up_bottom r_l q).
Proof.
  intros X p dl mk n_layers m_quad n_stokes vector max_os max_tau tol r r_l M Ns V Sc Bt Dc Rn RL.
  unfold rtm_sos in Rn. unfold rtm_sos_l in RL. destruct (cells max_tau (X p) 0 n_layers) as [cs| | |] eqn:C; cbn [bind] in Rn, RL; [|discriminate..].
  destruct (counted cs) as [cs'| | |] eqn:Cn; cbn [bind] in Rn, RL; [|discriminate..].
  assert (cs' = cs) as -> by (unfold counted in Cn; destruct (_ <=? _)%Z; [injection Cn as <-; reflexivity|discriminate]).
  destruct (finite (X p) (S m_quad * n_stokes)) eqn:Fi; [|discriminate]. injection Rn as <-. injection RL as <-. cbn [o_up_top o_down_bottom o_down_top o_up_bottom].
  pose proof (cuts_ok _ _ _ _ M C) as Ct.
  assert (forall j, (j < length cs)%nat -> (index cs j < n_layers)%nat /\ (0 < snd (cell cs j))%nat) as Rg.
  { intros j Hj. split; [apply (proj1 (cuts_layer _ _ _ _ _ Ct j Hj))|]. destruct (cells_ok _ _ _ _ _ M C) as (a & A0 & A1 & A2).
    assert (forall k, (k <= n_layers)%nat -> (j < a k)%nat -> (0 < snd (cell cs j))%nat) as Y.
    { induction k as [|k IH]; intros Hk Hj'; [lia|]. destruct (A2 k ltac:(lia)) as (c & B0 & B1 & _ & _ & _ & B5). destruct (Nat.lt_ge_cases j (a k)) as [L|L]; [apply IH; [lia|exact L]|].
      unfold cell. replace j with (a k + (j - a k))%nat by lia. rewrite B5 by lia. exact B0. }
    apply (Y n_layers); [lia|]. cbn [Nat.add] in A1. rewrite A1. exact Hj. }
  exists (fun s => {| o_up_top := fst (summed (X s) n_layers cs vector m_quad n_stokes max_os tol); o_down_top := fun _ => 0; o_up_bottom := fun _ => 0; o_down_bottom := snd (summed (X s) n_layers cs vector m_quad n_stokes max_os tol) |}).
  refine (conj _ (conj eq_refl _)).
  - eapply around_imp; [|apply (cells_around max_tau X p M n_layers 0)].
    + intros s Cs. unfold rtm_sos. rewrite Cs, C. cbn [bind]. rewrite Cn. cbn [bind]. unfold finite in *. destruct (proj1 V s) as (_ & -> & _). rewrite Fi. reflexivity.
    + intros i Hi. destruct (proj1 (proj2 V) i ltac:(lia)) as (_ & Dl & _). apply (parts_around max_tau (fun s => s_ltau (X s) i) p _ M Dl). intros z. apply Bt. lia.
  - intros q Hq. cbn [o_up_top o_down_top o_up_bottom o_down_bottom]. rewrite <- and_assoc. refine (conj _ (conj (dl_const _ _) (dl_const _ _))). apply (summed_d X p dl mk n_layers cs vector m_quad n_stokes V Rg (finite_ok _ _ Fi) tol max_os Ns); [|exact Hq].
    intros j i Hj Hi. apply (Dc _ _ _ Ct); [apply successive_ok; [intros k Hk; apply Rg, Hk|exact Sc]|exact Hj|exact Hi].
Qed.
Print Assumptions C59_derivatives.

(** Hypotheses met: derivative with respect to the albedo of a layer of thickness 1 *)
Definition albedos (s : R) : medium := slab s 1 1 (exp (-1)) 1 1 1 1 true 0 0.
Definition albedos_l : medium_l :=
  {| l_omega := fun _ => 1; l_ltau := fun _ => 0; l_btran := fun _ => 0; l_as0 := fun _ => 0; l_P0p := fun _ _ => 0; l_P0m := fun _ _ => 0; l_Ppp := fun _ _ _ => 0; l_Pmp := fun _ _ _ => 0;
     l_Pmm := fun _ _ _ => 0; l_Ppm := fun _ _ _ => 0; l_Rs := fun _ _ => 0; l_top := fun _ => 0; l_bot := fun _ => 0 |}.
Example derivatives_sample : varies (1 * 1) 1 (fun _ => true) albedos (1 / 2) albedos_l /\ scalar (1 * 1) 1 (albedos (1 / 2)) /\ between 2 1 (albedos (1 / 2)) /\ decided 0 2 1 0 1 20 (albedos (1 / 2)) /\
  (exists r, rtm_sos (albedos (1 / 2)) 1 0 1 false 20 2 0 = Answer r) /\
  exists r_l, rtm_sos_l (albedos (1 / 2)) albedos_l (fun _ => true) 1 0 1 false 20 2 0 = Answer r_l.
Proof.
  refine (conj _ (conj (slab_scalar _ _ _ _ _ _ _ _ _ _ _) (conj _ (conj _ (conj _ _))))).
  - unfold varies, albedos, albedos_l, only. cbn [slab s_F0 s_qx s_qw s_zeroth s_omega s_ltau s_as0 s_btran s_P0p s_P0m s_Ppp s_Pmp s_Pmm s_Ppm s_Rs s_top s_bot l_omega l_ltau l_btran l_as0 l_P0p l_P0m l_Ppp l_Pmp l_Pmm l_Ppm l_Rs l_top l_bot].
    refine (conj _ (conj _ (conj _ (conj _ (conj _ (conj (or_introl _) _)))))).
    + intros s. refine (conj eq_refl (conj eq_refl (conj eq_refl eq_refl))).
    + intros k Hk. refine (conj _ (conj _ _)); [apply dl_id|apply dl_const|apply dl_const].
    + intros k Hk. apply dl_const.
    + intros k q Hk Hq. split; apply dl_const.
    + intros k q i Hk Hq Hi. refine (conj _ (conj _ (conj _ _))); apply dl_const.
    + intros s. reflexivity.
    + intros q Hq. split; apply dl_const.
  - intros k z _. cbn [albedos slab s_ltau]. destruct (Z.lt_ge_cases z 1) as [L|L]; [right; exact L|left]. apply IZR_le in L. lra.
  - intros g N x Ct [X0 X1]. assert (N = 1%nat) as N1 by apply (slab_cut (1 / 2) 1 1 (exp (-1)) 1 1 1 1 0 0 true ltac:(lra) g N Ct). subst N.
    pose proof (exp_pos (-1)) as E0. assert (exp (- (1)) < exp 0) as E1 by (apply exp_increasing; lra). rewrite exp_0 in E1. pose proof (exp_pos (- (1))) as E2.
    assert (forall k, down (x k) 0 0%nat = 0 /\ up (x k) 1 0%nat = 0 /\ 0 < up (x k) 0 0%nat /\ 0 < down (x k) 1 0%nat) as P.
    { induction k as [|k IH].
      - destruct (slab_lit (1 / 2) 1 1 (exp (-1)) 1 1 1 1 0 0 true ltac:(lra) g 1 _ _ _ _ _ Ct X0) as (A1 & A2 & A3 & A4). cbn [albedos slab s_top s_bot nothing up down] in *. refine (conj A1 (conj A2 _)). rewrite A3, A4. unfold half, fraction. cbn [slab s_zeroth]. split; nra.
      - destruct IH as (B1 & B2 & B3 & B4). destruct (slab_lit (1 / 2) 1 1 (exp (-1)) 1 1 1 1 0 0 true ltac:(lra) g 1 _ _ _ _ _ Ct (X1 k)) as (A1 & A2 & A3 & A4).
        unfold mirrored in *. cbn [albedos slab s_Rs s_top s_bot] in *. refine (conj A1 (conj A2 _)). rewrite A3, A4, B1, B2. unfold half, fraction. cbn [slab s_zeroth]. split; nra. }
    intros k i _ Hi. replace i with 0%nat by lia. cbn [Nat.mul]. destruct (P k) as (_ & _ & P3 & P4). split; lra.
  - destruct (slab_runs (1 / 2) 1 1 (exp (-1)) 1 1 1 1 0 0 true ltac:(lra) 20 0) as (r & R0 & _). exists r. exact R0.
  - destruct (slab_runs (1 / 2) 1 1 (exp (-1)) 1 1 1 1 0 0 true ltac:(lra) 20 0) as (r & R0 & _). unfold rtm_sos in R0. unfold rtm_sos_l. fold (albedos (1 / 2)) in R0.
    destruct (bind (cells 2 (albedos (1 / 2)) 0 1) counted) as [cs| | |]; cbn [bind] in *; [|discriminate..]. destruct (finite (albedos (1 / 2)) (1 * 1)); [|discriminate]. eexists. reflexivity.
Qed.

(** At the thickness that is the limit itself the layer is cut in one part, above it in two: there the reported radiance is not even continuous, and
    what is reported as its derivative is none. *)
Definition growing (s : R) : medium := slab 1 s 1 (exp (- (2 * s))) 2 1 1 1 true 0 0.
Definition growing_l : medium_l :=
  {| l_omega := fun _ => 0; l_ltau := fun _ => 1; l_btran := fun k => if (k =? 0)%nat then 0 else - 2 * exp (- (2 * 1)); l_as0 := fun _ => 0; l_P0p := fun _ _ => 0; l_P0m := fun _ _ => 0; l_Ppp := fun _ _ _ => 0; l_Pmp := fun _ _ _ => 0;
     l_Pmm := fun _ _ _ => 0; l_Ppm := fun _ _ _ => 0; l_Rs := fun _ _ => 0; l_top := fun _ => 0; l_bot := fun _ => 0 |}.
Definition in_two (s : R) : R := let u := exp (- (s / 2)) in (1 - u) / 2 * (1 + u * u + u * (u * u) * (1 + u * u)).
Lemma growing_two : forall s tol, 1 < s < 2 -> exists r, rtm_sos (growing s) 1 0 1 false 1 1 tol = Answer r /\ o_up_top r 0%nat = in_two s.
Proof.
  intros s tol Hs. unfold rtm_sos. cbn [cells growing slab s_ltau]. unfold parts, over. destruct (Req_EM_T 1 0); [lra|]. cbn [bind]. replace (s / 1) with s by field.
  destruct (Rlt_dec 1 s); [|lra]. destruct (Rlt_dec s 2147483647); [|lra].
  assert (Int_part s = 1%Z) as ->. { destruct (base_Int_part s) as [J1 J2]. assert (Int_part s < 2)%Z by (apply lt_IZR; lra). assert (0 < Int_part s)%Z by (apply lt_IZR; lra). lia. }
  change (1 + Z.to_nat 1)%nat with 2%nat. cbn [bind seq map app]. unfold counted. cbn [length Z.of_nat Z.leb Z.compare Pos.compare Pos.compare_cont bind]. unfold finite. cbn [seq Nat.mul Nat.add forallb growing slab s_qx].
  destruct (Req_EM_T 1 0); [lra|]. cbn [andb]. eexists. split; [reflexivity|]. cbn [o_up_top]. unfold summed. cbn [Nat.sub orders fst first up length climb].
  unfold beam_strength, E, T, btran2, ltau2, index, cell. cbn [length nth Nat.sub Nat.ltb Nat.leb fst snd growing slab s_omega s_F0 s_qx s_P0p s_bot s_btran s_ltau s_as0 Nat.eqb Pos.to_nat Pos.iter_op Nat.add].
  replace (INR 2) with 2 by (cbn [INR]; lra). replace (- (s / 2) / 1) with (- (s / 2)) by field.
  replace (INR 0 * - (s / 2) * 2) with 0 by (cbn [INR]; ring). replace (INR 1 * - (s / 2) * 2) with (- (s / 2) + - (s / 2)) by (cbn [INR]; ring).
  replace (- (2 * s)) with (- (s / 2) + - (s / 2) + (- (s / 2) + - (s / 2))) by field. rewrite !exp_plus, exp_0. unfold in_two. pose proof PI_neq0. field. assumption.
Qed.
Theorem C59_jump_refuted : forall tol, varies (1 * 1) 1 (fun _ => true) growing 1 growing_l /\ scalar (1 * 1) 1 (growing 1) /\ decided tol 1 1 0 1 1 (growing 1) /\
  (exists A r_l, around 1 (fun s => rtm_sos (growing s) 1 0 1 false 1 1 tol = Answer (A s)) /\ rtm_sos_l (growing 1) growing_l (fun _ => true) 1 0 1 false 1 1 tol = Answer r_l) /\
  forall A l, around 1 (fun s => rtm_sos (growing s) 1 0 1 false 1 1 tol = Answer (A s)) -> ~ derivable_pt_lim (fun s => o_up_top (A s) 0%nat) 1 l.
Proof.
  intros tol. 
  assert (forall s, 0 < s <= 1 -> exists r, rtm_sos (growing s) 1 0 1 false 1 1 tol = Answer r /\ o_up_top r 0%nat = (1 - exp (- s)) / 2 * (1 + exp (- (2 * s)))) as One.
  { intros s Hs. unfold rtm_sos. cbn [cells growing slab s_ltau]. unfold parts, over. destruct (Req_EM_T 1 0); [lra|]. cbn [bind]. replace (s / 1) with s by field.
    destruct (Rlt_dec 1 s); [lra|]. cbn [bind seq map app]. unfold counted. cbn [length Z.of_nat Z.leb Z.compare Pos.compare Pos.compare_cont bind]. unfold finite. cbn [seq Nat.mul Nat.add forallb growing slab s_qx].
    destruct (Req_EM_T 1 0); [lra|]. cbn [andb]. eexists. split; [reflexivity|]. cbn [o_up_top]. unfold summed. cbn [Nat.sub orders fst first up length climb].
    unfold beam_strength, E, T, btran2, ltau2, index, cell. cbn [length nth Nat.sub Nat.ltb Nat.leb fst snd growing slab s_omega s_F0 s_qx s_P0p s_bot s_btran s_ltau s_as0 Nat.eqb].
    cbn [INR]. replace (- (s / 1) / 1) with (- s) by field. replace (0 * - (s / 1) * 2) with 0 by ring. rewrite exp_0. pose proof PI_neq0. field. assumption. }
  refine (conj _ (conj (slab_scalar _ _ _ _ _ _ _ _ _ _ _) (conj _ (conj _ _)))).
  - unfold varies, growing, growing_l, only. cbn [slab s_F0 s_qx s_qw s_zeroth s_omega s_ltau s_as0 s_btran s_P0p s_P0m s_Ppp s_Pmp s_Pmm s_Ppm s_Rs s_top s_bot l_omega l_ltau l_btran l_as0 l_P0p l_P0m l_Ppp l_Pmp l_Pmm l_Ppm l_Rs l_top l_bot].
    refine (conj _ (conj _ (conj _ (conj _ (conj _ (conj (or_introl _) _)))))).
    + intros s. refine (conj eq_refl (conj eq_refl (conj eq_refl eq_refl))).
    + intros k Hk. refine (conj _ (conj _ _)); [apply dl_const|apply dl_id|apply dl_const].
    + intros k Hk. destruct (k =? 0)%nat; [apply dl_const|]. pose proof (dl_id 1). eapply dl_eq; [ddq|]. cbv beta. ring.
    + intros k q Hk Hq. split; apply dl_const.
    + intros k q i Hk Hq Hi. refine (conj _ (conj _ (conj _ _))); apply dl_const.
    + intros s. reflexivity.
    + intros q Hq. split; apply dl_const.
  - intros g N x _ _ k i Hk. lia.
  - assert (forall s, 0 < s < 2 -> exists r, rtm_sos (growing s) 1 0 1 false 1 1 tol = Answer r) as Al.
    { intros s Hs. destruct (Rle_or_lt s 1) as [L|L]; [destruct (One s ltac:(lra)) as (r & R0 & _)|destruct (growing_two s tol ltac:(lra)) as (r & R0 & _)]; exists r; exact R0. }
    destruct (One 1 ltac:(lra)) as (r1 & R1 & _).
    exists (fun s => match rtm_sos (growing s) 1 0 1 false 1 1 tol with Answer r => r | _ => r1 end).
    unfold rtm_sos in R1. destruct (bind (cells 1 (growing 1) 0 1) counted) as [cs| | |] eqn:Cq; cbn [bind] in R1; [|discriminate..]. destruct (finite (growing 1) (1 * 1)) eqn:Fq; [|discriminate].
    eexists. split.
    + exists 1. split; [lra|]. intros t Ht. destruct (Al t) as (r & ->); [|reflexivity]. revert Ht. unfold Rabs. destruct (Rcase_abs (t - 1)); lra.
    + unfold rtm_sos_l. rewrite Cq. cbn [bind]. rewrite Fq. reflexivity.
  - intros A l (e & He & HA) D.
    assert (exists l2, derivable_pt_lim in_two 1 l2) as (l2 & D2). { unfold in_two. pose proof (dl_id 1). eexists. ddq; lra. }
    pose proof (dl_minus _ _ _ _ _ D D2) as D3. cbv beta in D3.
    assert (continuity_pt (fun s => o_up_top (A s) 0%nat - in_two s) 1) as C by (apply derivable_continuous_pt; eexists; exact D3).
    set (u := exp (- (1 / 2))). assert (0 < u) as U0 by apply exp_pos. assert (u < exp 0) as U1 by (apply exp_increasing; lra). rewrite exp_0 in U1.
    assert (o_up_top (A 1) 0%nat - in_two 1 = (1 - u) / 2 * (u * ((1 - u) * (1 - u)) * (1 + u))) as Hv.
    { destruct (One 1 ltac:(lra)) as (r & R0 & R1). rewrite (HA 1) in R0 by (rewrite Rminus_eq_0, Rabs_R0; exact He). injection R0 as <-. rewrite R1. unfold in_two. fold u.
      replace (- (1)) with (- (1 / 2) + - (1 / 2)) by field. replace (- (2 * 1)) with (- (1 / 2) + - (1 / 2) + (- (1 / 2) + - (1 / 2))) by field. rewrite !exp_plus. fold u. field. }
    assert (0 < o_up_top (A 1) 0%nat - in_two 1) as Pos by (rewrite Hv; repeat apply Rmult_lt_0_compat; lra).
    destruct (C _ Pos) as (dt & Dt & Hd). cbn [dist R_met R_dist] in Hd.
    set (t := 1 + Rmin (Rmin dt e) 1 / 2). assert (0 < Rmin (Rmin dt e) 1) as Mn by (repeat apply Rmin_glb_lt; lra).
    pose proof (Rmin_l (Rmin dt e) 1). pose proof (Rmin_r (Rmin dt e) 1). pose proof (Rmin_l dt e). pose proof (Rmin_r dt e).
    assert (Rabs (t - 1) = Rmin (Rmin dt e) 1 / 2) as At. { unfold t. replace (1 + Rmin (Rmin dt e) 1 / 2 - 1) with (Rmin (Rmin dt e) 1 / 2) by ring. apply Rabs_pos_eq. lra. }
    assert (o_up_top (A t) 0%nat - in_two t = 0) as Z.
    { destruct (growing_two t tol) as (r & R0 & R1); [unfold t; lra|]. rewrite (HA t) in R0 by lra. injection R0 as <-. rewrite R1. ring. }
    assert (R_dist (o_up_top (A t) 0%nat - in_two t) (o_up_top (A 1) 0%nat - in_two 1) < o_up_top (A 1) 0%nat - in_two 1) as Bad.
    { apply Hd. split; [split; [exact Logic.I|unfold t; lra]|]. unfold R_dist. lra. }
    unfold R_dist in Bad. rewrite Z in Bad. rewrite Rabs_left in Bad by lra. lra.
Qed.
Print Assumptions C59_jump_refuted.
