(** C58: successive orders of scattering add up, order by order, the light of an atmosphere cut in thin layers. *)
From Coq Require Import Reals Bool Arith List ZArith Lia Lra.
From Verif Require Import Base DeltaMSpec DeltaMProofs AddingModel TwoModel SosSpec SosModel SosProofs.
Import ListNotations.
Open Scope R_scope.

Section Statements.
Variables (md : medium) (n_layers m_quad n_stokes : nat) (vector : bool) (max_os : nat) (max_tau tol : R) (r : report).
Notation n := (S m_quad * n_stokes)%nat.
Hypothesis Setter : 0 < max_tau.
Hypothesis Same : vector = true \/ scalar n n_layers md.
Hypothesis Runs : rtm_sos md n_layers m_quad n_stokes vector max_os max_tau tol = Answer r.

Lemma run_cells : exists cs, cells max_tau md 0 n_layers = Answer cs /\
  r = {| o_up_top := fst (summed md n_layers cs vector m_quad n_stokes max_os tol); o_down_top := fun _ => 0; o_up_bottom := fun _ => 0;
         o_down_bottom := snd (summed md n_layers cs vector m_quad n_stokes max_os tol) |}.
Proof using Runs.
  clear -Runs. unfold rtm_sos in Runs. destruct (cells max_tau md 0 n_layers) as [cs| | |]; cbn [bind] in Runs; [|discriminate..]. exists cs. split; [reflexivity|].
  unfold counted in Runs. destruct (_ <=? _)%Z; cbn [bind] in Runs; [|discriminate]. destruct (finite md n); [|discriminate]. injection Runs as <-. reflexivity.
Qed.
Lemma run_orders : exists g N x K, cuts max_tau md n_layers g N /\ successive md n g N x /\ (1 <= K <= Nat.max 1 max_os)%nat /\
  (forall q, o_up_top r q = up (summed_up x K) 0 q /\ o_down_bottom r q = down (summed_up x K) N q) /\
  (K = Nat.max 1 max_os \/ (1 < K)%nat /\ spent tol m_quad n_stokes N (x (K - 1)%nat)) /\
  (forall j, (0 < j < K - 1)%nat -> ~ spent tol m_quad n_stokes N (x j)).
Proof using Setter Same Runs.
  destruct run_cells as (cs & C & ->). pose proof (cuts_ok _ _ _ _ Setter C) as Ct.
  assert (forall j, (j < length cs)%nat -> (index cs j < n_layers)%nat) as Rg by (intros j Hj; apply (proj1 (cuts_layer _ _ _ _ _ Ct j Hj))).
  destruct (summed_ok md n_layers cs vector m_quad n_stokes tol max_os) as (K & K0 & K1 & K2 & K3 & K4).
  exists (cut_of md n_layers cs), (length cs), (nth_order md n_layers cs vector m_quad n_stokes), K.
  refine (conj Ct (conj (successive_ok _ _ _ _ _ _ Rg Same) (conj K0 (conj _ (conj K3 K4))))). intros q. split; [apply K1|apply K2].
Qed.
End Statements.

(** The light reported at the top going up and at the surface going down is the sum of the first K orders of scattering.  K is the number of orders
    asked for, unless one of the orders after the first has first Stokes components below the tolerance in all directions at both boundaries: the first
    such order is the last that is added. *)
Theorem C58_orders : forall md n_layers m_quad n_stokes vector max_os max_tau tol r, 0 < max_tau -> vector = true \/ scalar (S m_quad * n_stokes) n_layers md ->
  rtm_sos md n_layers m_quad n_stokes vector max_os max_tau tol = Answer r ->
  exists g N x K, cuts max_tau md n_layers g N /\ successive md (S m_quad * n_stokes) g N x /\ (1 <= K <= Nat.max 1 max_os)%nat /\
    (forall q, o_up_top r q = up (summed_up x K) 0 q /\ o_down_bottom r q = down (summed_up x K) N q) /\
    (K = Nat.max 1 max_os \/ (1 < K)%nat /\ spent tol m_quad n_stokes N (x (K - 1)%nat)) /\
    (forall j, (0 < j < K - 1)%nat -> ~ spent tol m_quad n_stokes N (x j)).
Proof. intros. eapply run_orders; eassumption. Qed.
Print Assumptions C58_orders.

(** The sum of K orders is the light that the beam and the sum of one order less bring forth; what enters at the top has entered K times. *)
Theorem C58_general : forall md n_layers m_quad n_stokes vector max_os max_tau tol r, 0 < max_tau -> vector = true \/ scalar (S m_quad * n_stokes) n_layers md ->
  rtm_sos md n_layers m_quad n_stokes vector max_os max_tau tol = Answer r ->
  exists g N K last y, let n := (S m_quad * n_stokes)%nat in cuts max_tau md n_layers g N /\ (K < Nat.max 1 max_os)%nat /\
    lit md n g N 1 y (fun q => INR (S K) * s_top md q) (fun q => s_bot md q + mirrored md n N y q) (plus y last) /\
    (forall q, o_up_top r q = up (plus y last) 0 q /\ o_down_bottom r q = down (plus y last) N q) /\
    (S K = Nat.max 1 max_os \/ spent tol m_quad n_stokes N last).
Proof.
  intros md n_layers m_quad n_stokes vector max_os max_tau tol r M Sm Rn.
  destruct (run_orders _ _ _ _ _ _ _ _ _ M Sm Rn) as (g & N & x & K & Ct & Sx & K0 & K1 & K2 & _).
  destruct K as [|K]; [lia|]. exists g, N, K, (x K), (summed_up x K). cbv zeta.
  refine (conj Ct (conj _ (conj _ (conj K1 _)))).
  - lia.
  - exact (sums_lit _ _ _ _ _ K Sx).
  - destruct K2 as [K2|[_ K2]]; [left; exact K2|right]. replace (S K - 1)%nat with K in K2 by lia. exact K2.
Qed.
Print Assumptions C58_general.

(** Where nothing enters at the top and no more than the part rho of the light goes on at each scattering, what is reported differs from the whole
    light by no more than the power of rho that is the number of orders. *)
Theorem C58_error : forall md n_layers m_quad n_stokes vector max_os max_tau tol r, 0 < max_tau -> vector = true \/ scalar (S m_quad * n_stokes) n_layers md ->
  rtm_sos md n_layers m_quad n_stokes vector max_os max_tau tol = Answer r ->
  (forall k, (k < n_layers)%nat -> 0 <= s_ltau md k) -> (forall q, (q < S m_quad * n_stokes)%nat -> 0 < s_qx md q) -> (forall q, (q < S m_quad * n_stokes)%nat -> s_top md q = 0) ->
  exists g N K last, let n := (S m_quad * n_stokes)%nat in cuts max_tau md n_layers g N /\ (1 <= K)%nat /\ (K = Nat.max 1 max_os \/ spent tol m_quad n_stokes N last) /\
    forall rho Y B, 0 <= rho -> fades md n g N rho -> whole md n g N Y -> 0 <= B -> within n N B Y nothing ->
      forall q, (q < n)%nat -> Rabs (up Y 0 q - o_up_top r q) <= rho ^ K * B /\ Rabs (down Y N q - o_down_bottom r q) <= rho ^ K * B.
Proof.
  intros md n_layers m_quad n_stokes vector max_os max_tau tol r M Sm Rn Tau Qx Top.
  destruct (run_orders _ _ _ _ _ _ _ _ _ M Sm Rn) as (g & N & x & K & Ct & Sx & K0 & K1 & K2 & _).
  exists g, N, K, (x (K - 1)%nat). cbv zeta. refine (conj Ct (conj (proj1 K0) (conj _ _))). { destruct K2 as [K2|[_ K2]]; [left|right]; exact K2. }
  intros rho Y B Rho Fd W HB B0 q Hq. destruct (K1 q) as [-> ->].
  assert (forall j, (j < N)%nat -> 0 <= c_tau g j) as Tg.
  { intros j Hj. destruct (cuts_layer _ _ _ _ _ Ct j Hj) as (L & c & C0 & -> & _). apply Rmult_le_pos; [apply Tau, L|]. left. apply Rinv_0_lt_compat. apply (lt_INR 0), C0. }
  pose proof (remainder _ _ _ _ _ Rho Fd Qx Tg x Y B Sx Top W HB B0 K) as D. split; [apply D; [lia|exact Hq]|apply D; [lia|exact Hq]].
Qed.
Print Assumptions C58_error.

(** * Instances *)
(** One layer and one direction; phase functions that are the same for all angles *)
Definition slab (omega tau b0 b1 slant p0 F w : R) (zeroth : bool) (top bot : R) : medium :=
  {| s_omega := fun _ => omega; s_ltau := fun _ => tau; s_btran := fun k => if (k =? 0)%nat then b0 else b1; s_as0 := fun _ => slant; s_P0p := fun _ _ => p0; s_P0m := fun _ _ => p0;
     s_Ppp := fun _ _ _ => 1; s_Pmp := fun _ _ _ => 1; s_Pmm := fun _ _ _ => 1; s_Ppm := fun _ _ _ => 1; s_F0 := F * (4 * PI); s_qx := fun _ => 1; s_qw := fun _ => w;
     s_zeroth := zeroth; s_Rs := None; s_top := fun _ => top; s_bot := fun _ => bot |}.
Section Slab.
Variables (omega tau b0 b1 slant p0 F w top bot : R) (zeroth : bool).
Notation md := (slab omega tau b0 b1 slant p0 F w zeroth top bot).
Hypothesis Thin : 0 <= tau <= 1.
Lemma slab_runs : forall max_os tol, exists r, rtm_sos md 1 0 1 false max_os 2 tol = Answer r /\ o_down_top r 0%nat = 0 /\ o_up_bottom r 0%nat = 0.
Proof using Thin.
  intros max_os tol. unfold rtm_sos. cbn [cells slab s_ltau]. unfold parts, over. destruct (Req_EM_T 2 0); [lra|]. cbn [bind]. destruct (Rlt_dec 1 (tau / 2)); [lra|]. cbn [bind seq map app].
  unfold counted. cbn [length Z.of_nat Z.leb Z.compare Pos.compare Pos.compare_cont bind]. unfold finite. cbn [seq Nat.mul Nat.add forallb slab s_qx].
  destruct (Req_EM_T 1 0); [lra|]. cbn [andb]. eexists. split; [reflexivity|]. split; reflexivity.
Qed.
Lemma slab_scalar : scalar (1 * 1) 1 md. Proof using. intros k q i _ _ _. split; reflexivity. Qed.
Lemma slab_cut : forall g N, cuts 2 md 1 g N -> N = 1%nat /\ c_layer g 0 = 0%nat /\ c_tau g 0 = tau /\ c_sun g 0 = b0 /\ c_sun g 1 = b1.
Proof using Thin.
  intros g N (a & A0 & A1 & A2 & A3). destruct (A3 0%nat ltac:(lia)) as (c & C0 & C1 & _ & C3 & C4). cbn [slab s_ltau s_btran s_as0 Nat.eqb] in *.
  assert (c = 1%nat) as ->. { destruct (Nat.eq_dec c 1) as [|ne]; [assumption|]. assert (2 * INR (c - 1) <= tau) by (apply C3; lia). assert (1 <= INR (c - 1)) by (apply (le_INR 1); lia). lra. }
  assert (N = 1%nat) as -> by lia. destruct (C4 0%nat ltac:(lia)) as (D0 & D1 & D2). rewrite A0 in *. cbn [Nat.add INR] in *.
  refine (conj eq_refl (conj D0 (conj _ (conj _ A2)))); [rewrite D1; field|]. rewrite D2. replace (- slant * (0 * (tau / 1))) with 0 by ring. rewrite exp_0. ring.
Qed.
Definition half : R := fraction md * w.
Lemma slab_lit : forall g N s x t b y, cuts 2 md 1 g N -> lit md (1 * 1) g N s x t b y ->
  down y 0 0%nat = t 0%nat /\ up y 1 0%nat = b 0%nat /\
  up y 0 0%nat = exp (- tau) * b 0%nat + (1 - exp (- tau)) * (omega * (s * F * ((b0 + b1) / 2) * p0 + half * ((up x 0 0%nat + down x 0 0%nat + up x 1 0%nat + down x 1 0%nat) / 2))) /\
  down y 1 0%nat = exp (- tau) * t 0%nat + (1 - exp (- tau)) * (omega * (s * F * ((b0 + b1) / 2) * p0 + half * ((up x 0 0%nat + down x 0 0%nat + up x 1 0%nat + down x 1 0%nat) / 2))).
Proof using Thin.
  intros g N s x t b y Ct [L0 L1]. destruct (slab_cut g N Ct) as (-> & G0 & G1 & G2 & G3). destruct (L0 0%nat ltac:(lia)) as [A B]. destruct (L1 0%nat 0%nat ltac:(lia) ltac:(lia)) as [U D].
  refine (conj A (conj B _)). rewrite U, D, A, B. unfold half, source_up, source_down, SosSpec.clear. rewrite G1, G2, G3. cbn [slab s_qx s_omega s_F0 s_P0p s_P0m s_qw s_Ppp s_Ppm s_Pmp s_Pmm Nat.mul Nat.add total].
  replace (- tau / 1) with (- tau) by field. pose proof PI_neq0. split; field; assumption.
Qed.
Lemma slab_lit_back : forall g N s x t b y, cuts 2 md 1 g N -> down y 0 0%nat = t 0%nat -> up y 1 0%nat = b 0%nat ->
  up y 0 0%nat = exp (- tau) * b 0%nat + (1 - exp (- tau)) * (omega * (s * F * ((b0 + b1) / 2) * p0 + half * ((up x 0 0%nat + down x 0 0%nat + up x 1 0%nat + down x 1 0%nat) / 2))) ->
  down y 1 0%nat = exp (- tau) * t 0%nat + (1 - exp (- tau)) * (omega * (s * F * ((b0 + b1) / 2) * p0 + half * ((up x 0 0%nat + down x 0 0%nat + up x 1 0%nat + down x 1 0%nat) / 2))) ->
  lit md (1 * 1) g N s x t b y.
Proof using Thin.
  intros g N s x t b y Ct A B U D. destruct (slab_cut g N Ct) as (-> & G0 & G1 & G2 & G3). split.
  - intros q Hq. replace q with 0%nat by lia. split; assumption.
  - intros j q Hj Hq. replace j with 0%nat by lia. replace q with 0%nat by lia. rewrite U, D, A, B. unfold half, source_up, source_down, SosSpec.clear. rewrite G1, G2, G3.
    cbn [slab s_qx s_omega s_F0 s_P0p s_P0m s_qw s_Ppp s_Ppm s_Pmp s_Pmm Nat.mul Nat.add total].
    replace (- tau / 1) with (- tau) by field. pose proof PI_neq0. split; field; assumption.
Qed.
End Slab.

(** Hypotheses met: a layer of thickness 1 that scatters half of the light; the whole light is known. *)
Definition sample : medium := slab (1 / 2) 1 1 (exp (-1)) 1 1 1 1 true 0 0.
Definition sample_light : field :=
  let z := (1 - exp (-1) * exp (-1)) / (3 + exp (-1)) in
  {| up := fun j _ => if (j =? 0)%nat then z else 0; down := fun j _ => if (j =? 0)%nat then 0 else z |}.
Example orders_sample : exists r, rtm_sos sample 1 0 1 false 20 2 (1 / 1000) = Answer r /\ scalar (1 * 1) 1 sample /\
  forall g N, cuts 2 sample 1 g N -> fades sample (1 * 1) g N (1 / 2) /\ whole sample (1 * 1) g N sample_light /\ within (1 * 1) N 1 sample_light nothing /\ 0 < up sample_light 0 0%nat.
Proof.
  destruct (slab_runs (1 / 2) 1 1 (exp (-1)) 1 1 1 1 0 0 true ltac:(lra) 20 (1 / 1000)) as (r & R0 & _). exists r. refine (conj R0 (conj (slab_scalar _ _ _ _ _ _ _ _ _ _ _) _)).
  intros g N Ct. pose proof (exp_pos (-1)) as E0. assert (exp (-1) < 1) as E1 by (rewrite <- exp_0; apply exp_increasing; lra). set (e := exp (-1)) in *.
  assert (0 < (1 - e * e) / (3 + e)) as Z0 by (apply Rdiv_lt_0_compat; nra).
  assert ((1 - e * e) / (3 + e) <= 1) as Z1 by (apply Rmult_le_reg_r with (3 + e); [lra|]; unfold Rdiv; rewrite Rmult_assoc, Rinv_l by lra; nra).
  refine (conj _ (conj _ (conj _ _))).
  - split.
    + intros j q _ _. unfold fraction. cbn [sample slab s_zeroth s_omega s_qw s_Ppp s_Ppm s_Pmp s_Pmm Nat.mul Nat.add total]. rewrite !Rabs_pos_eq by lra. split; lra.
    + intros r' q H. discriminate H.
  - apply (slab_lit_back (1 / 2) 1 1 (exp (-1)) 1 1 1 1 0 0 true ltac:(lra) g N 1 sample_light _ _ sample_light Ct); unfold half, fraction, mirrored; cbn [sample slab s_Rs s_top s_bot s_zeroth sample_light up down Nat.eqb]; replace (- (1)) with (-1) by lra; fold e; try lra; field; lra.
  - intros j q Hj Hq. cbn [sample_light up down nothing]. fold e. rewrite Rminus_0_r, Rminus_0_r. destruct (j =? 0)%nat; rewrite ?Rabs_R0; split; try lra; rewrite Rabs_pos_eq; lra.
  - cbn [sample_light up Nat.eqb]. exact Z0.
Qed.

(** What enters at the top enters again at every order: of light 1 that crosses an empty atmosphere, as many times as much arrives as orders are taken. *)
Theorem C58_top_refuted : forall max_os, (1 <= max_os)%nat -> exists md r Y, rtm_sos md 1 0 1 false max_os 2 (1 / 2) = Answer r /\ scalar (1 * 1) 1 md /\
  (forall g N, cuts 2 md 1 g N -> whole md (1 * 1) g N Y /\ down Y N 0%nat = 1) /\ o_down_bottom r 0%nat = INR max_os.
Proof.
  intros max_os Mo. set (md := slab 0 0 0 0 0 0 0 0 true 1 0). destruct (slab_runs 0 0 0 0 0 0 0 0 1 0 true ltac:(lra) max_os (1 / 2)) as (r & R0 & _).
  exists md, r, {| up := fun _ _ => 0; down := fun _ _ => 1 |}. refine (conj R0 (conj (slab_scalar _ _ _ _ _ _ _ _ _ _ _) (conj _ _))).
  - intros g N Ct. split; [|reflexivity].
    apply (slab_lit_back 0 0 0 0 0 0 0 0 1 0 true ltac:(lra) g N 1 _ _ _ _ Ct); unfold mirrored, md; cbn [slab s_Rs s_top s_bot up down]; rewrite ?Ropp_0, ?exp_0; lra.
  - destruct (C58_orders md 1 0 1 false max_os 2 (1 / 2) r ltac:(lra) (or_intror (slab_scalar _ _ _ _ _ _ _ _ _ _ _)) R0) as (g & N & x & K & Ct & Sx & K0 & K1 & K2 & _).
    assert (N = 1%nat) as N1 by apply (slab_cut 0 0 0 0 0 0 0 0 1 0 true ltac:(lra) g N Ct). subst N.
    assert (forall k, down (x k) 1 0%nat = 1) as D.
    { intros k. destruct Sx as [X0 X1]. destruct k as [|k].
      - destruct (slab_lit 0 0 0 0 0 0 0 0 1 0 true ltac:(lra) g 1 _ _ _ _ _ Ct X0) as (_ & _ & _ & ->). cbn [md slab s_top]. rewrite Ropp_0, exp_0. lra.
      - destruct (slab_lit 0 0 0 0 0 0 0 0 1 0 true ltac:(lra) g 1 _ _ _ _ _ Ct (X1 k)) as (_ & _ & _ & ->). cbn [md slab s_top]. rewrite Ropp_0, exp_0. lra. }
    destruct K2 as [K2|[_ K2]]; [|destruct (K2 0%nat ltac:(lia)) as [_ Bad]; cbn [Nat.mul] in Bad; rewrite D in Bad; lra].
    rewrite (proj2 (K1 0%nat)), K2. replace (Nat.max 1 max_os) with max_os by lia. clear -D. induction max_os as [|k IH]; [reflexivity|]. rewrite S_INR. cbn [summed_up plus down]. rewrite IH, D. reflexivity.
Qed.
Print Assumptions C58_top_refuted.

(** The light going down at the top and going up at the surface is reported to be zero, whatever it is. *)
Theorem C58_boundary_refuted : forall max_os tol, exists md r Y, rtm_sos md 1 0 1 false max_os 2 tol = Answer r /\ scalar (1 * 1) 1 md /\
  (forall g N, cuts 2 md 1 g N -> whole md (1 * 1) g N Y /\ down Y 0 0%nat = 1 /\ up Y N 0%nat = 1) /\ o_down_top r 0%nat = 0 /\ o_up_bottom r 0%nat = 0.
Proof.
  intros max_os tol. set (md := slab 0 0 0 0 0 0 0 0 true 1 1). destruct (slab_runs 0 0 0 0 0 0 0 0 1 1 true ltac:(lra) max_os tol) as (r & R0 & R1 & R2).
  exists md, r, {| up := fun _ _ => 1; down := fun _ _ => 1 |}. refine (conj R0 (conj (slab_scalar _ _ _ _ _ _ _ _ _ _ _) (conj _ (conj R1 R2)))).
  intros g N Ct. refine (conj _ (conj eq_refl eq_refl)).
  apply (slab_lit_back 0 0 0 0 0 0 0 0 1 1 true ltac:(lra) g N 1 _ _ _ _ Ct); unfold mirrored, md; cbn [slab s_Rs s_top s_bot up down]; rewrite ?Ropp_0, ?exp_0; lra.
Qed.
Print Assumptions C58_boundary_refuted.

(** Light of an azimuthal component after the zeroth can be negative, and counts as below any tolerance: the series ends after two orders, however
    large the third. *)
Theorem C58_stop_refuted : forall M tol max_os, 0 < tol -> (3 <= max_os)%nat -> exists md r, rtm_sos md 1 0 1 false max_os 2 tol = Answer r /\ scalar (1 * 1) 1 md /\ s_zeroth md = false /\
  forall g N x, cuts 2 md 1 g N -> successive md (1 * 1) g N x -> o_up_top r 0%nat = up (summed_up x 2) 0 0%nat /\ up (x 2%nat) 0 0%nat < - M.
Proof.
  intros M tol max_os Tl Mo. pose proof (exp_pos (- (1))) as E0. assert (exp (- (1)) < exp 0) as E1 by (apply exp_increasing; lra). rewrite exp_0 in E1. set (d := 1 - exp (- (1))) in *.
  assert (0 < d) as D0 by (unfold d; lra). set (f := 4 * (Rabs M + 1) / (d * d * d)).
  assert (0 < f) as F0. { pose proof (Rabs_pos M). apply Rdiv_lt_0_compat; [lra|]. repeat apply Rmult_lt_0_compat; exact D0. }
  set (md := slab 1 1 1 1 0 (-1) f 2 false 0 0). destruct (slab_runs 1 1 1 1 0 (-1) f 2 0 0 false ltac:(lra) max_os tol) as (r & R0 & _).
  exists md, r. refine (conj R0 (conj (slab_scalar _ _ _ _ _ _ _ _ _ _ _) (conj eq_refl _))).
  assert (forall g N x, cuts 2 md 1 g N -> successive md (1 * 1) g N x -> N = 1%nat /\
    up (x 0%nat) 0 0%nat = - f * d /\ up (x 1%nat) 0 0%nat = - f * d * d / 2 /\ down (x 1%nat) 1 0%nat = - f * d * d / 2 /\ up (x 2%nat) 0 0%nat = - f * d * d * d / 4) as Val.
  { intros g N x Ct [X0 X1]. assert (N = 1%nat) as N1 by apply (slab_cut 1 1 1 1 0 (-1) f 2 0 0 false ltac:(lra) g N Ct). subst N. split; [reflexivity|].
    destruct (slab_lit 1 1 1 1 0 (-1) f 2 0 0 false ltac:(lra) g 1 _ _ _ _ _ Ct X0) as (A1 & A2 & A3 & A4).
    destruct (slab_lit 1 1 1 1 0 (-1) f 2 0 0 false ltac:(lra) g 1 _ _ _ _ _ Ct (X1 0%nat)) as (B1 & B2 & B3 & B4).
    destruct (slab_lit 1 1 1 1 0 (-1) f 2 0 0 false ltac:(lra) g 1 _ _ _ _ _ Ct (X1 1%nat)) as (C1 & C2 & C3 & C4).
    unfold half, fraction, mirrored in *. cbn [md slab s_Rs s_top s_bot s_zeroth nothing up down] in *. fold d in A3, A4, B3, B4, C3, C4.
    rewrite A1, A2 in B3, B4. rewrite B1, B2 in C3. rewrite A3, A4 in B3, B4. rewrite B3, B4 in C3. rewrite A3, B3, B4, C3. split; [field|]. split; [field|]. split; field. }
  intros g N x Ct Sx. destruct (Val g N x Ct Sx) as (V0 & V1 & V2 & V3 & V4).
  destruct (C58_orders md 1 0 1 false max_os 2 tol r ltac:(lra) (or_intror (slab_scalar _ _ _ _ _ _ _ _ _ _ _)) R0) as (g' & N' & x' & K & Ct' & Sx' & K0 & K1 & K2 & K3).
  destruct (Val g' N' x' Ct' Sx') as (W0 & W1 & W2 & W3 & W4).
  assert (0 < f * d * d) as FD by exact (Rmult_lt_0_compat _ _ (Rmult_lt_0_compat _ _ F0 D0) D0).
  assert (spent tol 0 1 N' (x' 1%nat)) as Sp. { intros i Hi. replace i with 0%nat by lia. cbn [Nat.mul]. rewrite W0, W2, W3. split; lra. }
  assert (K = 2%nat) as ->.
  { assert (~ (2 < K)%nat) by (intros H; apply (K3 1%nat); [lia|exact Sp]). destruct K2 as [->|[? _]]; lia. }
  split.
  - rewrite (proj1 (K1 0%nat)). cbn [summed_up plus up nothing]. rewrite V1, V2, W1, W2. reflexivity.
  - rewrite V4. replace (- f * d * d * d / 4) with (- (Rabs M + 1)) by (unfold f; field; lra). pose proof (Rle_abs M). lra.
Qed.
Print Assumptions C58_stop_refuted.
