(** The light in the directions of output, and its equation *)
From Coq Require Import Reals Bool Arith List ZArith Lia Lra.
From Verif Require Import Base DeltaMSpec DeltaMProofs AddingModel AddingSpec AddingMat EigModel EigSpec AtmSpec BvpSpec ScatModel TwoSpec TwoModel TwoProofs TwoLight TwoProperties ViewSpec ViewModel ViewProofs ViewSweep.
From Verif Require SingleProofs BrdfTheorems.
Open Scope R_scope.

Lemma total_head : forall n (f : nat -> R), (forall c, f (S c) = 0) -> total (S n) f = f 0%nat.
Proof. induction n as [|n IH]; intros f Z; [cbn [total]; ring|]. remember (S n) as k. cbn [total]. subst k. rewrite IH by exact Z. rewrite Z. ring. Qed.

Section Light.
Variable d : deck.
Variables (m : nat) (solar : bool) (g : ground).
Variables (n : nat) (umu ru ru0 : vec).
Variable once : bool.
Variable xs : nat -> slab.
Hypothesis See : sees_from d n umu once xs.
Hypothesis T : tame d m solar g.

(** The atmosphere with the stream only *)
Definition streams (zs : nat -> slab) : Prop := sees d zs /\ forall k, qx (xs k) 0%nat = qx (zs k) 0%nat /\ zeroth (xs k) = zeroth (zs k) /\ omega (xs k) = omega (zs k) /\ flux0 (xs k) = flux0 (zs k) /\ ltau (xs k) = ltau (zs k) /\
  as_0 (xs k) = as_0 (zs k) /\ btran (xs k) = btran (zs k) /\ planck0 (xs k) = planck0 (zs k) /\ planck1 (xs k) = planck1 (zs k) /\ P_pp (xs k) 0%nat 0%nat = P_pp (zs k) 0%nat 0%nat /\ P_mp (xs k) 0%nat 0%nat = P_mp (zs k) 0%nat 0%nat /\
  Q_mm (xs k) 0%nat = Q_mm (zs k) 0%nat /\ Q_pm (xs k) 0%nat = Q_pm (zs k) 0%nat /\ qw (xs k) = counts /\ qw (zs k) 0%nat = 1.
Lemma streams_of : exists zs, streams zs.
Proof.
  destruct See as (y & y0 & Y & Y0 & G & G0 & E). exists (general d (Y 0%nat) Y0). split; [exists (y 0%nat), y0, (Y 0%nat), Y0; refine (conj (G 0%nat ltac:(lia)) (conj G0 eq_refl))|]. rewrite E. intros k. repeat (split; [reflexivity|]). reflexivity.
Qed.
Lemma scattered_head : forall c P Q (f h : beam) i t, scattered (S n) counts c P Q f h i t = c * (P i 0%nat * f 0%nat t + Q i 0%nat * h 0%nat t).
Proof. intros c P Q f h i t. unfold scattered. rewrite total_head by (intros; cbn [counts]; ring). cbn [counts]. ring. Qed.
Lemma scattered_one : forall w c P Q (f h : beam) i t, w 0%nat = 1 -> scattered 1 w c P Q f h i t = c * (P i 0%nat * f 0%nat t + Q i 0%nat * h 0%nat t).
Proof. intros w c P Q f h i t W. unfold scattered. cbn [total]. rewrite W. ring. Qed.
(** The stream does not notice the directions. *)
Lemma head_obeys : forall zs k (f h f' h' : beam), streams zs -> (forall s, f 0%nat s = f' 0%nat s /\ h 0%nat s = h' 0%nat s) ->
  forall t, (derivable_pt_lim (f 0%nat) t ((f 0%nat t - scattered (S n) (qw (xs k)) ((1 + (if zeroth (xs k) then 1 else 0)) / 4 * omega (xs k)) (P_pp (xs k)) (P_mp (xs k)) f h 0%nat t -
      source solar false (omega (xs k)) (flux0 (xs k)) (btran (xs k)) (as_0 (xs k)) (planck0 (xs k)) (planck1 (xs k)) (ltau (xs k)) (Q_pm (xs k)) 0%nat t) / qx (xs k) 0%nat) /\
    derivable_pt_lim (h 0%nat) t ((scattered (S n) (qw (xs k)) ((1 + (if zeroth (xs k) then 1 else 0)) / 4 * omega (xs k)) (P_pp (xs k)) (P_mp (xs k)) h f 0%nat t +
      source solar false (omega (xs k)) (flux0 (xs k)) (btran (xs k)) (as_0 (xs k)) (planck0 (xs k)) (planck1 (xs k)) (ltau (xs k)) (Q_mm (xs k)) 0%nat t - h 0%nat t) / qx (xs k) 0%nat)) <->
    (derivable_pt_lim (f' 0%nat) t ((f' 0%nat t - scattered 1 (qw (zs k)) ((1 + (if zeroth (zs k) then 1 else 0)) / 4 * omega (zs k)) (P_pp (zs k)) (P_mp (zs k)) f' h' 0%nat t -
      source solar false (omega (zs k)) (flux0 (zs k)) (btran (zs k)) (as_0 (zs k)) (planck0 (zs k)) (planck1 (zs k)) (ltau (zs k)) (Q_pm (zs k)) 0%nat t) / qx (zs k) 0%nat) /\
    derivable_pt_lim (h' 0%nat) t ((scattered 1 (qw (zs k)) ((1 + (if zeroth (zs k) then 1 else 0)) / 4 * omega (zs k)) (P_pp (zs k)) (P_mp (zs k)) h' f' 0%nat t +
      source solar false (omega (zs k)) (flux0 (zs k)) (btran (zs k)) (as_0 (zs k)) (planck0 (zs k)) (planck1 (zs k)) (ltau (zs k)) (Q_mm (zs k)) 0%nat t - h' 0%nat t) / qx (zs k) 0%nat)).
Proof.
  intros zs k f h f' h' (_ & Z) E t. destruct (Z k) as (E1 & E2 & E3 & E4 & E5 & E6 & E7 & E8 & E9 & E10 & E11 & E12 & E13 & E14 & E15).
  rewrite E14, !scattered_head, !(scattered_one (qw (zs k))) by exact E15. unfold source. rewrite E1, E2, E3, ?E4, ?E5, ?E6, ?E7, ?E8, ?E9, E10, E11, ?E12, ?E13. destruct (E t) as (-> & ->).
  split; intros (A & B); (split; [eapply (BrdfTheorems.dl_same _ _)|eapply (BrdfTheorems.dl_same _ _)]); first [exact A|exact B|intros s; destruct (E s) as (X & Y); first [exact X|exact Y|symmetry; exact X|symmetry; exact Y]].
Qed.
Definition first_of (f : nat -> beam) : nat -> beam := fun k _ => f k 0%nat.
Lemma restricts : forall zs Ip Im, streams zs -> atmosphere (S n) m solar false xs (mirror g ru) zvec (glints d solar m g ru0 once) Ip Im ->
  atmosphere 1 m solar false zs (reflector (reflection g)) zvec (constant (glint d solar m g)) (first_of Ip) (first_of Im).
Proof.
  intros zs Ip Im Z ((L & Jn & Tp) & Bt). assert (forall k, ltau (zs k) = t_ltau d k /\ ltau (xs k) = t_ltau d k) as LT.
  { intros k. destruct Z as ((y & y0 & Y & Y0 & _ & _ & ->) & _). destruct See as (z & z0 & X & X0 & _ & _ & ->). split; reflexivity. }
  split; [refine (conj _ (conj _ _))|].
  - intros k Hk i t Hi Ht. assert (i = 0%nat) as -> by lia. apply (head_obeys zs k (Ip k) (Im k) (first_of Ip k) (first_of Im k) Z); [intros; split; reflexivity|]. apply (L k Hk 0%nat t ltac:(lia)). rewrite (proj2 (LT k)), <- (proj1 (LT k)). exact Ht.
  - intros k i Hk Hi. unfold first_of. rewrite (proj1 (LT k)), <- (proj2 (LT k)). apply Jn; lia.
  - intros i Hi. assert (i = 0%nat) as -> by lia. apply Tp. lia.
  - intros i Hi. assert (i = 0%nat) as -> by lia. specialize (Bt 0%nat ltac:(lia)). cbn [total]. unfold first_of. rewrite (proj1 (LT m)), <- (proj2 (LT m)). rewrite Bt. unfold constant. cbn [glints]. rewrite total_head by (intros; destruct g as [(r & r0)|]; cbn [mirror]; ring).
    unfold mirror, reflector, reflection, zmat. destruct g as [(r & r0)|]; ring.
Qed.
(** * There is no other light. *)
Lemma only_light : forall Ip Im Ip' Im', (forall i, (i <= n)%nat -> 0 < angle d umu i) ->
  atmosphere (S n) m solar false xs (mirror g ru) zvec (glints d solar m g ru0 once) Ip Im -> atmosphere (S n) m solar false xs (mirror g ru) zvec (glints d solar m g ru0 once) Ip' Im' ->
  same_light (S n) m xs Ip Im Ip' Im'.
Proof.
  intros Ip Im Ip' Im' U A A'. destruct streams_of as (zs & Z). pose proof (C54_unique d m solar g zs (proj1 Z) T _ _ _ _ _ _ (restricts zs Ip Im Z A) (restricts zs Ip' Im' Z A')) as Same.
  assert (forall k, ltau (zs k) = t_ltau d k /\ ltau (xs k) = t_ltau d k /\ qw (xs k) = counts /\ qx (xs k) = angle d umu) as LT.
  { intros k. destruct Z as ((y & y0 & Y & Y0 & _ & _ & ->) & _). destruct See as (z & z0 & X & X0 & _ & _ & ->). repeat (split; [reflexivity|]). reflexivity. }
  assert (forall k s, (k <= m)%nat -> 0 <= s <= t_ltau d k -> Ip k 0%nat s = Ip' k 0%nat s /\ Im k 0%nat s = Im' k 0%nat s) as H0.
  { intros k s Hk Hs. apply (Same k 0%nat s Hk ltac:(lia)). rewrite (proj1 (LT k)). exact Hs. }
  clear Same Z. destruct A as ((L & Jn & Tp) & Bt). destruct A' as ((L' & Jn' & Tp') & Bt').
  assert (forall k, (k <= m)%nat -> 0 <= t_ltau d k) as P by (intros k Hk; apply (each_ok d m solar g T k Hk)).
  (* within a layer *)
  assert (forall k i a b, (k <= m)%nat -> (i < S n)%nat -> 0 <= a -> a <= b -> b <= t_ltau d k -> (Ip k i a = Ip' k i a <-> Ip k i b = Ip' k i b) /\ (Im k i a = Im' k i a <-> Im k i b = Im' k i b)) as Within.
  { intros k i a b Hk Hi Ha Hab Hb. destruct (LT k) as (LT1 & LT2 & LT3 & LT4). specialize (U i ltac:(lia)).
    assert (forall t, a <= t <= b -> 0 <= t <= ltau (xs k)) as In by (intros t Ht; rewrite LT2; lra).
    set (Su := fun t => scattered (S n) (qw (xs k)) ((1 + (if zeroth (xs k) then 1 else 0)) / 4 * omega (xs k)) (P_pp (xs k)) (P_mp (xs k)) (Ip k) (Im k) i t +
      source solar false (omega (xs k)) (flux0 (xs k)) (btran (xs k)) (as_0 (xs k)) (planck0 (xs k)) (planck1 (xs k)) (ltau (xs k)) (Q_pm (xs k)) i t).
    set (Sd := fun t => scattered (S n) (qw (xs k)) ((1 + (if zeroth (xs k) then 1 else 0)) / 4 * omega (xs k)) (P_pp (xs k)) (P_mp (xs k)) (Im k) (Ip k) i t +
      source solar false (omega (xs k)) (flux0 (xs k)) (btran (xs k)) (as_0 (xs k)) (planck0 (xs k)) (planck1 (xs k)) (ltau (xs k)) (Q_mm (xs k)) i t).
    split.
    - apply (SingleProofs.same_solution (/ angle d umu i) _ _ (fun t => - Su t / angle d umu i)); [exact Hab| |]; intros t Ht.
      + destruct (L k Hk i t Hi (In t Ht)) as (D & _). eapply dl_eq; [exact D|]. unfold Su. rewrite LT4. field. lra.
      + destruct (L' k Hk i t Hi (In t Ht)) as (D & _). eapply dl_eq; [exact D|]. unfold Su. rewrite LT3, !scattered_head, LT4. destruct (H0 k t Hk ltac:(lra)) as (-> & ->). field. lra.
    - apply (SingleProofs.same_solution (- / angle d umu i) _ _ (fun t => Sd t / angle d umu i)); [exact Hab| |]; intros t Ht.
      + destruct (L k Hk i t Hi (In t Ht)) as (_ & D). eapply dl_eq; [exact D|]. unfold Sd. rewrite LT4. field. lra.
      + destruct (L' k Hk i t Hi (In t Ht)) as (_ & D). eapply dl_eq; [exact D|]. unfold Sd. rewrite LT3, !scattered_head, LT4. destruct (H0 k t Hk ltac:(lra)) as (-> & ->). field. lra. }
  assert (forall i, (i < S n)%nat -> forall q, (q <= m)%nat -> Ip (m - q)%nat i (t_ltau d (m - q)%nat) = Ip' (m - q)%nat i (t_ltau d (m - q)%nat)) as Up.
  { intros i Hi. induction q as [|q IH]; intros Hq.
    - rewrite Nat.sub_0_r. specialize (Bt i Hi). specialize (Bt' i Hi). rewrite (proj1 (proj2 (LT m))) in Bt, Bt'. rewrite Bt, Bt'. f_equal. rewrite !total_head by (intros; destruct g as [(r & r0)|]; cbn [mirror]; ring). destruct (H0 m (t_ltau d m) (le_n m) ltac:(split; [apply P; lia|lra])) as (_ & ->). reflexivity.
    - specialize (IH ltac:(lia)). replace (m - q)%nat with (S (m - S q)) in IH by lia. set (k := (m - S q)%nat) in *. destruct (Jn k i ltac:(lia) Hi) as (_ & J1). destruct (Jn' k i ltac:(lia) Hi) as (_ & J2). rewrite (proj1 (proj2 (LT k))) in J1, J2. rewrite J1, J2.
      apply (Within (S k) i 0 (t_ltau d (S k)) ltac:(lia) Hi); [lra|apply P; lia|lra|exact IH]. }
  assert (forall i, (i < S n)%nat -> forall k, (k <= m)%nat -> Im k i 0 = Im' k i 0) as Down.
  { intros i Hi. induction k as [|k IH]; intros Hk; [rewrite (Tp i Hi), (Tp' i Hi); reflexivity|]. destruct (Jn k i ltac:(lia) Hi) as (J1 & _). destruct (Jn' k i ltac:(lia) Hi) as (J2 & _). rewrite (proj1 (proj2 (LT k))) in J1, J2. rewrite J1, J2.
    apply (Within k i 0 (t_ltau d k) ltac:(lia) Hi); [lra|apply P; lia|lra|apply IH; lia]. }
  intros k i s Hk Hi Hs. rewrite (proj1 (proj2 (LT k))) in Hs. split.
  - apply (Within k i s (t_ltau d k) Hk Hi); try lra. replace k with (m - (m - k))%nat by lia. apply Up; lia.
  - apply (Within k i 0 s Hk Hi); try lra. apply Down; assumption.
Qed.

(** * The light that the code finds *)
Variable ws : nat -> wave.
Variable b : vec.
Hypothesis C : clear d m solar n umu.
Hypothesis W : forall k, (k <= m)%nat -> wave_of d solar k (ws k).
Definition view_p : nat -> beam := fun k i s => match i with O => two_p d ws b k 0%nat s | S j => upward d solar umu once j ws b k (Vu d solar m g umu ru ru0 once j ws b (S k)) s end.
Definition view_m : nat -> beam := fun k i s => match i with O => two_m d ws b k 0%nat s | S j => downward d solar umu once j ws b k (down_lev d solar umu once j ws b k) s end.
Lemma bottom_of : forall j k c, (j < n)%nat -> (k <= m)%nat -> upward d solar umu once j ws b k c (t_ltau d k) = c.
Proof. intros j k c Hj Hk. destruct (nu_ok d solar m g n umu j ws T C Hj W k Hk) as (N1 & N2). apply up_bottom; first [assumption|apply (u_ok d solar m n umu j C Hj)|apply (as_ok d solar m n umu j C Hj k Hk)|apply (at_ok d solar m g T k Hk)]. Qed.
Lemma top_of : forall j k c, (j < n)%nat -> (k <= m)%nat -> downward d solar umu once j ws b k c 0 = c.
Proof. intros j k c Hj Hk. destruct (nu_ok d solar m g n umu j ws T C Hj W k Hk) as (N1 & N2). apply down_top; first [assumption|apply (u_ok d solar m n umu j C Hj)|apply (as_ok d solar m n umu j C Hj k Hk)|apply (at_ok d solar m g T k Hk)]. Qed.
Lemma view_light : forall zs, streams zs -> atmosphere 1 m solar false zs (reflector (reflection g)) zvec (constant (glint d solar m g)) (two_p d ws b) (two_m d ws b) ->
  atmosphere (S n) m solar false xs (mirror g ru) zvec (glints d solar m g ru0 once) view_p view_m.
Proof.
  intros zs Z ((L & Jn & Tp) & Bt). assert (forall k, ltau (zs k) = t_ltau d k /\ ltau (xs k) = t_ltau d k /\ qw (xs k) = counts /\ qx (xs k) = angle d umu /\ omega (xs k) = t_omega d k /\ zeroth (xs k) = (t_four d =? 0)%nat /\
    flux0 (xs k) = t_F0 d /\ btran (xs k) = t_btran d k /\ as_0 (xs k) = t_as0 d k) as LT.
  { intros k. destruct Z as ((y & y0 & Y & Y0 & _ & _ & ->) & _). destruct See as (z & z0 & X & X0 & _ & _ & ->). repeat (split; [reflexivity|]). reflexivity. }
  split; [refine (conj _ (conj _ _))|].
  - intros k Hk i t Hi Ht. destruct i as [|j].
    + apply (head_obeys zs k (view_p k) (view_m k) (two_p d ws b k) (two_m d ws b k) Z); [intros; split; reflexivity|]. apply (L k Hk 0%nat t ltac:(lia)). rewrite (proj1 (LT k)). rewrite (proj1 (proj2 (LT k))) in Ht. exact Ht.
    + assert (j < n)%nat as Hj by lia. destruct (LT k) as (_ & L2 & -> & -> & -> & -> & L6 & L7 & L8). rewrite !scattered_head. destruct (each_ok d m solar g T k Hk) as (C0 & _).
      destruct (seen_from d n umu once xs k (S j) See (four_ok d m solar g T) (qx_ok d m solar g T) (mu0_ok d m solar g T) C0 ltac:(lia)) as (-> & -> & Q1 & Q2). unfold source. rewrite Q1, Q2, L6, L7, L8. cbn [angle directly].
      destruct (nu_ok d solar m g n umu j ws T C Hj W k Hk) as (N1 & N2). destruct (W k Hk) as (_ & _ & _ & _ & _ & Fz & _).
      pose proof (u_ok d solar m n umu j C Hj) as Uj. pose proof (as_ok d solar m n umu j C Hj k Hk) as Aj. pose proof (at_ok d solar m g T k Hk) as At.
      split.
      * eapply dl_eq; [apply (up_obeys d solar once (umu j) k (ws k) b Uj N1 N2 Aj At)|]. cbv beta. unfold view_p, view_m. cbv beta iota. fold (upward d solar umu once j ws b k).
        unfold two_p, two_m, beam_up, one_up, two_up, aa, upward. destruct solar; [|destruct (Fz eq_refl) as (-> & ->)]; destruct once; field; repeat split; first [apply PI_neq0|lra].
      * eapply dl_eq; [apply (down_obeys d solar once (umu j) k (ws k) b Uj N1 N2 Aj At)|]. cbv beta. unfold view_p, view_m. cbv beta iota.
        unfold two_p, two_m, beam_down, one_down, two_down, aa, downward. destruct solar; [|destruct (Fz eq_refl) as (-> & ->)]; destruct once; field; repeat split; first [apply PI_neq0|lra].
  - intros k i Hk Hi. rewrite (proj1 (proj2 (LT k))). destruct i as [|j]; [specialize (Jn k 0%nat Hk ltac:(lia)); rewrite (proj1 (LT k)) in Jn; exact Jn|]. unfold view_p, view_m. cbv beta iota. rewrite top_of, bottom_of by lia. split; [reflexivity|].
    apply Vu_step. lia.
  - intros i Hi. destruct i as [|j]; [apply (Tp 0%nat); lia|]. unfold view_m. cbv beta iota. rewrite top_of by lia. reflexivity.
  - intros i Hi. rewrite (proj1 (proj2 (LT m))). rewrite total_head by (intros; destruct g as [(r & r0)|]; cbn [mirror]; ring). destruct i as [|j].
    + specialize (Bt 0%nat ltac:(lia)). rewrite (proj1 (LT m)) in Bt. cbn [total] in Bt. unfold view_p, view_m. cbv beta iota. rewrite Bt. unfold constant. cbn [glints]. unfold mirror, reflector, reflection, zmat. destruct g as [(r & r0)|]; ring.
    + unfold view_p at 1. cbv beta iota. rewrite bottom_of by lia. unfold Vu. rewrite Nat.sub_diag. cbn [up_lev]. unfold from_below, view_m. cbv beta iota. replace (2 * S m - 2)%nat with (2 * m)%nat by lia.
      destruct (ends_of d m solar g T ws b m (le_n m) (W m (le_n m))) as (_ & _ & _ & ->). unfold dnL, Fm1. unfold mirror, glints. destruct g as [(r & r0)|]; [|ring]. destruct solar; destruct once; cbn [andb]; ring.
Qed.
End Light.
