(** C45: the reflection, transmission and source of a layer found with the eigenvalue solver are those of the equation of transfer. *)
From Coq Require Import Reals Bool Arith Lia Lra.
From Verif Require Import Base DeltaMSpec DeltaMProofs AddingModel AddingSpec AddingMat RadianceModel SingleProofs
  EigModel EigSpec EigMat EigCore EigProofs EigEnergy EigLayer.
Open Scope R_scope.

(** What is required of the inputs of a layer.  Beyond [scatters]: when the expansion of the phase function has ended ([dull]) the phase
    functions are zero; otherwise the medium is separable, the beam is not in resonance with it, and [atran] is the transmittance of the
    layer for the beam. *)
Definition layer_inputs (n : nat) (dull solar thermal : bool) (x : slab) : Prop :=
  let c := factor x 1 * omega x in
  scatters n (qx x) (qw x) c (P_pp x) (P_mp x) /\ 0 <= ltau x /\
  (dull = true -> forall i j, (i < n)%nat -> (j < n)%nat -> P_pp x i j = 0 /\ P_mp x i j = 0 /\ Q_pm x i = 0 /\ Q_mm x i = 0) /\
  (dull = false -> separable n (qx x) (qw x) c (P_pp x) (P_mp x)) /\
  (solar = true -> as_0 x <> 0 /\ nonresonant n (qx x) (qw x) c (P_pp x) (P_mp x) (as_0 x) /\ atran x = exp (- as_0 x * ltau x)) /\
  (thermal = true -> ltau x <> 0).
(** The light of the layer: the equation of transfer with the beam and thermal emission as sources *)
Definition layer_light (n : nat) (solar thermal : bool) (x : slab) (Ip Im : beam) : Prop :=
  transfers n (qx x) (qw x) ((1 + (if zeroth x then 1 else 0)) / 4 * omega x) (P_pp x) (P_mp x)
    (source solar thermal (omega x) (flux0 x) (btran x) (as_0 x) (planck0 x) (planck1 x) (ltau x) (Q_pm x))
    (source solar thermal (omega x) (flux0 x) (btran x) (as_0 x) (planck0 x) (planck1 x) (ltau x) (Q_mm x)) (ltau x) Ip Im.

Lemma factor_is : forall x, factor x 1 = (1 + (if zeroth x then 1 else 0)) / 4.
Proof. intros. unfold factor. f_equal. ring. Qed.

(** The operators are exactly those of the equation of transfer: incident and outgoing light are related by them if and only if they are
    the ends of a solution. *)
Theorem C45_layer_exact : forall n solve eig dull solar thermal x lay, (0 < n)%nat -> solver n (solve n) -> (thermal = true -> solver (n + n) (solve (n + n)%nat)) ->
  eigensolver n eig -> layer_inputs n dull solar thermal x ->
  layer_of n solve eig dull solar thermal x = Done lay ->
  forall down1 up2 up1 down2, interacts n lay down1 up2 up1 down2 <->
    exists Ip Im, layer_light n solar thermal x Ip Im /\ ends n (ltau x) Ip Im down1 up2 up1 down2.
Proof.
  intros n solve eig dull solar thermal x lay Pos S1 S2 ES (Sc & LP & Du & Sep & So & Th) H d1 u2 u1 d2. unfold layer_light. rewrite <- factor_is.
  unfold layer_of in H. destruct (dull || (if Req_EM_T (omega x) 0 then true else false)) eqn:D.
  - unfold dull_layer in H. destruct thermal; [discriminate|]. injection H as <-.
    assert (dull = true \/ omega x = 0) as D'. { apply orb_true_iff in D. destruct D as [D|D]; [tauto|]. right. destruct (Req_EM_T (omega x) 0); [assumption|discriminate]. }
    rewrite <- (dull_exact n (qx x) (qw x) (factor x 1 * omega x) (P_pp x) (P_mp x)).
    + assert (forall v i, (i < n)%nat -> dot n (dull_T x) i v = exp (- ltau x / qx x i) * v i) as DT.
      { intros v i Hi. unfold dot. rewrite (total_ext n _ (fun k => if Nat.eqb i k then exp (- ltau x / qx x i) * v k else 0)).
        - exact (total_pick n i (fun k => exp (- ltau x / qx x i) * v k) Hi).
        - intros k _. unfold dull_T. destruct (Nat.eqb i k); ring. }
      assert (forall v i, dot n zmat i v = 0) as DZ. { intros. unfold dot. apply total_zero. intros. unfold zmat. ring. }
      assert (scale_add solar false (btran x) zvec zvec = zvec \/ forall i, scale_add solar false (btran x) zvec zvec i = 0) as SZ.
      { right. intros i. unfold scale_add. destruct solar; unfold vscale, zvec; ring. }
      assert (forall i, scale_add solar false (btran x) zvec zvec i = 0) as SZ'. { intros i. unfold scale_add. destruct solar; unfold vscale, zvec; ring. }
      unfold interacts. cbn [Rm Tm Sm Rp Tp Sp]. split; intros Q i Hi; destruct (Q i Hi) as (A & B); rewrite ?DT, ?DZ, ?SZ' in * by exact Hi; split; lra.
    + intros i Hi. apply Sc. exact Hi.
    + intros i j Hi Hj. destruct D' as [D'|D']; [|rewrite D'; split; ring]. destruct (Du D' i j Hi Hj) as (-> & -> & _). split; ring.
    + intros i t Hi. unfold source. destruct D' as [D'|D'].
      * destruct (Du D' i i Hi Hi) as (_ & _ & -> & ->). destruct solar; split; unfold Rdiv; ring.
      * rewrite D'. destruct solar; split; unfold Rdiv; ring.
    + exact LP.
  - injection H as <-. apply orb_false_iff in D. destruct D as (D & _).
    apply layer_exact; try assumption; [exact (Sep D)|]. intros T. exact (conj (S2 T) (Th T)).
Qed.
(** The light inside the layer is determined by the light that falls on it. *)
Theorem C45_light_unique : forall n solar thermal x, let c := factor x 1 * omega x in scatters n (qx x) (qw x) c (P_pp x) (P_mp x) -> 0 <= ltau x ->
  forall Ip Im Ip' Im', layer_light n solar thermal x Ip Im -> layer_light n solar thermal x Ip' Im' ->
  (forall i, (i < n)%nat -> Im i 0 = Im' i 0 /\ Ip i (ltau x) = Ip' i (ltau x)) ->
  forall i t, (i < n)%nat -> 0 <= t <= ltau x -> Ip i t = Ip' i t /\ Im i t = Im' i t.
Proof.
  intros n solar thermal x c Sc LP Ip Im Ip' Im' H H' B. unfold layer_light in *. rewrite <- factor_is in H, H'.
  exact (unique_light n (qx x) (qw x) c (P_pp x) (P_mp x) _ _ (ltau x) Sc LP Ip Im Ip' Im' H H' B).
Qed.
(** Whatever falls on the layer, there is a solution, and it leaves as the operators say. *)
Theorem C45_light_exists : forall n solve eig dull solar thermal x lay, (0 < n)%nat -> solver n (solve n) -> (thermal = true -> solver (n + n) (solve (n + n)%nat)) ->
  eigensolver n eig -> layer_inputs n dull solar thermal x ->
  layer_of n solve eig dull solar thermal x = Done lay ->
  forall down1 up2, exists Ip Im, layer_light n solar thermal x Ip Im /\ (forall i, (i < n)%nat -> Im i 0 = down1 i /\ Ip i (ltau x) = up2 i) /\
    forall i, (i < n)%nat -> Ip i 0 = dot n (Rm lay) i down1 + dot n (Tp lay) i up2 + Sp lay i /\
                             Im i (ltau x) = dot n (Tm lay) i down1 + dot n (Rp lay) i up2 + Sm lay i.
Proof.
  intros n solve eig dull solar thermal x lay Pos S1 S2 ES In H d1 u2.
  destruct (proj1 (C45_layer_exact n solve eig dull solar thermal x lay Pos S1 S2 ES In H d1 u2 
     (fun i => dot n (Rm lay) i d1 + dot n (Tp lay) i u2 + Sp lay i) (fun i => dot n (Tm lay) i d1 + dot n (Rp lay) i u2 + Sm lay i))) as (Ip & Im & T & E).
  { intros i Hi. split; reflexivity. }
  exists Ip, Im. refine (conj T (conj _ _)); intros i Hi; destruct (E i Hi) as (A & B & C & D); split; assumption.
Qed.
(** The operators are determined by the equation: two routines that meet their contracts give the same layer. *)
Theorem C45_layer_unique : forall n solve solve' eig eig' dull solar thermal x lay lay', (0 < n)%nat -> solver n (solve n) -> solver n (solve' n) ->
  (thermal = true -> solver (n + n) (solve (n + n)%nat) /\ solver (n + n) (solve' (n + n)%nat)) ->
  eigensolver n eig -> eigensolver n eig' -> layer_inputs n dull solar thermal x ->
  layer_of n solve eig dull solar thermal x = Done lay -> layer_of n solve' eig' dull solar thermal x = Done lay' ->
  forall i, (i < n)%nat -> Sp lay i = Sp lay' i /\ Sm lay i = Sm lay' i /\
    forall j, (j < n)%nat -> Rm lay i j = Rm lay' i j /\ Tp lay i j = Tp lay' i j /\ Tm lay i j = Tm lay' i j /\ Rp lay i j = Rp lay' i j.
Proof.
  intros n solve solve' eig eig' dull solar thermal x lay lay' Pos S1 S1' S2 E1 E1' In H H'.
  assert (forall d1 u2 i, (i < n)%nat -> 
    dot n (Rm lay) i d1 + dot n (Tp lay) i u2 + Sp lay i = dot n (Rm lay') i d1 + dot n (Tp lay') i u2 + Sp lay' i /\
    dot n (Tm lay) i d1 + dot n (Rp lay) i u2 + Sm lay i = dot n (Tm lay') i d1 + dot n (Rp lay') i u2 + Sm lay' i) as Same.
  { intros d1 u2. 
    pose proof (C45_layer_exact n solve eig dull solar thermal x lay Pos S1 (fun t => proj1 (S2 t)) E1 In H d1 u2
       (fun i => dot n (Rm lay) i d1 + dot n (Tp lay) i u2 + Sp lay i) (fun i => dot n (Tm lay) i d1 + dot n (Rp lay) i u2 + Sm lay i)) as A.
    pose proof (C45_layer_exact n solve' eig' dull solar thermal x lay' Pos S1' (fun t => proj2 (S2 t)) E1' In H' d1 u2
       (fun i => dot n (Rm lay) i d1 + dot n (Tp lay) i u2 + Sp lay i) (fun i => dot n (Tm lay) i d1 + dot n (Rp lay) i u2 + Sm lay i)) as B.
    apply B. apply A. intros i Hi. split; reflexivity. }
  assert (forall m i, dot n m i zvec = 0) as DZ. { intros. unfold dot. apply total_zero. intros. unfold zvec. ring. }
  assert (forall m i j, (j < n)%nat -> dot n m i (fun k => ident k j) = m i j) as DI.
  { intros m i j Hj. unfold dot. rewrite (total_ext n _ (fun k => if Nat.eqb j k then m i k else 0)).
    - exact (total_pick n j (fun k => m i k) Hj).
    - intros k _. unfold ident. rewrite (Nat.eqb_sym k j). destruct (Nat.eqb j k); ring. }
  intros i Hi. destruct (Same zvec zvec i Hi) as (A & B). rewrite !DZ in A, B.
  assert (Sp lay i = Sp lay' i) as P by lra. assert (Sm lay i = Sm lay' i) as M by lra. refine (conj P (conj M _)).
  intros j Hj. destruct (Same (fun k => ident k j) zvec i Hi) as (C & D). destruct (Same zvec (fun k => ident k j) i Hi) as (E & F).
  rewrite !DZ, !DI in C, D, E, F by exact Hj. refine (conj _ (conj _ (conj _ _))); lra.
Qed.
(** An answer is given unless thermal emission meets a layer that scatters nothing ... *)
Theorem C45_answers : forall n solve eig dull solar thermal x,
  (exists lay, layer_of n solve eig dull solar thermal x = Done lay) <-> thermal = false \/ (dull = false /\ omega x <> 0).
Proof.
  intros. unfold layer_of, dull_layer. destruct (Req_EM_T (omega x) 0), dull, thermal; cbn; split;
    try (intros (? & ?); discriminate); try (intros [?|(? & ?)]; [discriminate|tauto || discriminate]); intros; try tauto;
    try (left; reflexivity); try (right; split; [reflexivity|assumption]); eexists; reflexivity.
Qed.
(** ... although its light exists whatever falls on it: with an albedo of zero the process ends, whatever the other inputs. *)
Theorem C45_thermal_absorption_refuted : forall n solve eig dull solar x, omega x = 0 -> (forall i, (i < n)%nat -> 0 < qx x i) -> ltau x <> 0 ->
  layer_of n solve eig dull solar true x = Exits /\
  forall down1 up2, exists Ip Im, layer_light n solar true x Ip Im /\ forall i, (i < n)%nat -> Im i 0 = down1 i /\ Ip i (ltau x) = up2 i.
Proof.
  intros n solve eig dull solar x Z Q LN. split.
  { unfold layer_of, dull_layer. destruct (Req_EM_T (omega x) 0); [|contradiction]. rewrite orb_true_r. reflexivity. }
  intros d1 u2. set (b := (planck1 x - planck0 x) / ltau x).
  set (P := fun i s => planck0 x + qx x i * b + b * s). set (M := fun i s => planck0 x - qx x i * b + b * s).
  exists (fun i s => (u2 i - P i (ltau x)) * exp (- ltau x / qx x i) * exp (/ qx x i * s) + P i s), (fun i s => (d1 i - M i 0) * exp (- / qx x i * s) + M i s). split.
  - unfold layer_light. intros i s Hi _. pose proof (Q i Hi) as K. unfold scattered, source. rewrite Z, !Rmult_0_r, !Rmult_0_l.
    assert (forall c s, derivable_pt_lim (fun s => c + b * s) s b) as DL.
    { intros c q. eapply dl_eq; [apply dl_plus; [apply dl_const|apply dl_scal; apply dl_id]|]. ring. }
    split; (eapply dl_eq; [apply dl_plus; [apply dl_scal; apply dl_exp; apply dl_scal; apply dl_id|apply DL]|]); unfold P, M, b; destruct solar; field; split; lra.
  - intros i Hi. rewrite Rmult_0_r, exp_0. split; [ring|]. rewrite Rmult_assoc, <- exp_plus.
    replace (- ltau x / qx x i + / qx x i * ltau x) with 0 by (unfold Rdiv; ring). rewrite exp_0. ring.
Qed.

(* ------------------------------------------------------------------------- *)
(** * A layer that meets the hypotheses: one stream, the beam and thermal emission *)
Definition det2 (m : mat) : R := m 0%nat 0%nat * m 1%nat 1%nat - m 0%nat 1%nat * m 1%nat 0%nat.
Definition solves (k : nat) (m x : mat) : mat := match k with
  | 1%nat => fun i j => x i j / m 0%nat 0%nat
  | _ => fun i j => match j with
         | O => (x i 0%nat * m 1%nat 1%nat - x i 1%nat * m 1%nat 0%nat) / det2 m
         | _ => (x i 1%nat * m 0%nat 0%nat - x i 0%nat * m 0%nat 1%nat) / det2 m end end.
Definition eig1 (m : mat) : vec * mat := (fun _ => m 0%nat 0%nat, ident).
Definition one : slab := {| qx := fun _ => 1; qw := fun _ => 1; zeroth := true; flux0 := 1; omega := 1/2; ltau := 1; as_0 := 1; atran := exp (- 1 * 1); btran := 1;
  planck0 := 1; planck1 := 2; P_pp := fun _ _ => 1; P_mp := fun _ _ => 1; Q_mm := fun _ => 1; Q_pm := fun _ => 1 |}.
Lemma solves_1 : solver 1 (solves 1).
Proof.
  intros m x (p & P & _) i j Hi Hj. assert (i = 0%nat) as -> by lia. assert (j = 0%nat) as -> by lia.
  specialize (P 0%nat 0%nat Hi Hj). unfold total, ident in *. cbn in *. assert (m 0%nat 0%nat <> 0) by (intros E; rewrite E in P; lra). field. assumption.
Qed.
Lemma solves_2 : solver 2 (solves 2).
Proof.
  intros m x (p & P & _) i j Hi Hj.
  assert (det2 m <> 0) as D.
  { intros D. pose proof (P 0%nat 0%nat ltac:(lia) ltac:(lia)) as P0. pose proof (P 0%nat 1%nat ltac:(lia) ltac:(lia)) as P1.
    pose proof (P 1%nat 0%nat ltac:(lia) ltac:(lia)) as P2. pose proof (P 1%nat 1%nat ltac:(lia) ltac:(lia)) as P3.
    unfold total, ident in *. cbn in *. unfold det2 in D.
    assert ((m 0%nat 0%nat * m 1%nat 1%nat - m 0%nat 1%nat * m 1%nat 0%nat) * (p 0%nat 0%nat * p 1%nat 1%nat - p 0%nat 1%nat * p 1%nat 0%nat) = 1) as C.
    { transitivity ((0 + m 0%nat 0%nat * p 0%nat 0%nat + m 0%nat 1%nat * p 1%nat 0%nat) * (0 + m 1%nat 0%nat * p 0%nat 1%nat + m 1%nat 1%nat * p 1%nat 1%nat)
                  - (0 + m 0%nat 0%nat * p 0%nat 1%nat + m 0%nat 1%nat * p 1%nat 1%nat) * (0 + m 1%nat 0%nat * p 0%nat 0%nat + m 1%nat 1%nat * p 1%nat 0%nat)); [ring|].
      rewrite P0, P1, P2, P3. ring. }
    rewrite D in C. lra. }
  unfold total. cbn. unfold det2 in *. assert (j = 0%nat \/ j = 1%nat) as [ -> | -> ] by lia; field; exact D.
Qed.
Lemma eig1_ok : eigensolver 1 eig1.
Proof.
  intros m _. split.
  - exists ident. split; intros i j Hi Hj; assert (i = 0%nat) as -> by lia; assert (j = 0%nat) as -> by lia; unfold total, ident; cbn; ring.
  - intros i k Hi Hk. assert (i = 0%nat) as -> by lia. assert (k = 0%nat) as -> by lia. unfold total, ident. cbn. unfold ident. cbn. ring.
Qed.
Lemma one_inputs : layer_inputs 1 false true true one.
Proof.
  unfold layer_inputs. refine (conj _ (conj _ (conj _ (conj _ (conj _ _))))).
  - refine (conj _ (conj _ _)).
    + intros i Hi. cbn. lra.
    + intros i j Hi Hj. cbn. split; reflexivity.
    + intros i Hi _. unfold total, factor. cbn. rewrite Rabs_R1, Rabs_right by lra. lra.
  - cbn. lra.
  - discriminate.
  - intros _. exists (eig1 (second_order 1 (qx one) (qw one) (factor one 1 * omega one) (P_pp one) (P_mp one))).
    apply eig1_ok. eexists (fun _ => second_order 1 (qx one) (qw one) (factor one 1 * omega one) (P_pp one) (P_mp one) 0%nat 0%nat, ident). split.
    + exists ident. split; intros i j Hi Hj; assert (i = 0%nat) as -> by lia; assert (j = 0%nat) as -> by lia; unfold total, ident; cbn; ring.
    + intros i k Hi Hk. assert (i = 0%nat) as -> by lia. assert (k = 0%nat) as -> by lia. unfold total, ident. cbn. unfold ident. cbn. ring.
  - intros _. cbn [as_0 one atran ltau]. refine (conj _ (conj _ _)); [lra| |reflexivity].
    intros a b H. destruct (H 1 0%nat 0 ltac:(lia) ltac:(lra)) as (A & B).
    assert (forall v : R, derivable_pt_lim (fun t => v * exp (- 1 * t)) 0 (- v)) as E.
    { intros v. eapply dl_eq; [apply dl_scal; apply dl_exp; apply dl_scal; apply dl_id|]. rewrite Rmult_0_r, exp_0. ring. }
    pose proof (uniqueness_limite _ _ _ _ A (E (a 0%nat))) as A'. pose proof (uniqueness_limite _ _ _ _ B (E (b 0%nat))) as B'.
    unfold scattered, total, factor in A', B'. cbn in A', B'. rewrite Rmult_0_r, exp_0 in A', B'.
    intros i Hi. assert (i = 0%nat) as -> by lia. split; lra.
  - intros _. cbn. lra.
Qed.
Example C45_one : forall down1 up2, exists lay Ip Im, layer_of 1 solves eig1 false true true one = Done lay /\ layer_light 1 true true one Ip Im /\
  Im 0%nat 0 = down1 /\ Ip 0%nat 1 = up2 /\ Ip 0%nat 0 = Rm lay 0%nat 0%nat * down1 + Tp lay 0%nat 0%nat * up2 + Sp lay 0%nat.
Proof.
  intros d u. destruct (proj2 (C45_answers 1 solves eig1 false true true one)) as (lay & H).
  { right. split; [reflexivity|]. cbn. lra. }
  destruct (C45_light_exists 1 solves eig1 false true true one lay ltac:(lia) solves_1 (fun _ => solves_2) eig1_ok one_inputs H (fun _ => d) (fun _ => u)) as (Ip & Im & T & B & E).
  exists lay, Ip, Im. destruct (B 0%nat ltac:(lia)) as (B1 & B2). destruct (E 0%nat ltac:(lia)) as (E1 & _).
  refine (conj H (conj T (conj B1 (conj B2 _)))). rewrite E1. unfold dot, total. ring.
Qed.

Print Assumptions C45_layer_exact.
Print Assumptions C45_light_unique.
Print Assumptions C45_light_exists.
Print Assumptions C45_layer_unique.
Print Assumptions C45_answers.
Print Assumptions C45_thermal_absorption_refuted.
