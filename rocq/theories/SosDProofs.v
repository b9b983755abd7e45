(** Derivatives of the orders of scattering *)
From Coq Require Import Reals Bool Arith List ZArith Lia Lra.
From Verif Require Import Base DeltaMSpec DeltaMProofs BeamProofs SingleProofs AddingModel AddingSpec AddingCalls EigDProofs TwoModel ViewDProofs SosSpec SosModel SosProofs SosDSpec SosDModel.
Import ListNotations.
Open Scope R_scope.

Section D.
Variables (X : R -> medium) (p : R) (dl : medium_l) (mk : nat -> bool).
Variables (n_layers : nat) (cs : list (nat * nat * nat)) (vector : bool) (m_quad n_stokes : nat).
Notation n := (S m_quad * n_stokes)%nat.
Notation N := (length cs).
Notation d := (X p).
Hypothesis V : varies n n_layers mk X p dl.
Hypothesis In_range : forall j, (j < N)%nat -> (index cs j < n_layers)%nat /\ (0 < snd (cell cs j))%nat.
Hypothesis Qx : forall q, (q < n)%nat -> s_qx d q <> 0.
Notation der f l := (derivable_pt_lim f p l).

Lemma fixed : forall s, s_F0 (X s) = s_F0 d /\ s_qx (X s) = s_qx d /\ s_qw (X s) = s_qw d /\ s_zeroth (X s) = s_zeroth d. Proof using V. exact (proj1 V). Qed.
Lemma v_layer : forall k, (k < n_layers)%nat -> der (fun s => s_omega (X s) k) (l_omega dl k) /\ der (fun s => s_ltau (X s) k) (l_ltau dl k) /\ der (fun s => s_as0 (X s) k) (l_as0 dl k).
Proof using V. exact (proj1 (proj2 V)). Qed.
Lemma v_beam : forall k, (k <= n_layers)%nat -> der (fun s => s_btran (X s) k) (l_btran dl k). Proof using V. exact (proj1 (proj2 (proj2 V))). Qed.
Lemma inr_cell : forall j, (j < N)%nat -> INR (snd (cell cs j)) <> 0.
Proof using In_range. intros j Hj. apply not_0_INR. pose proof (proj2 (In_range j Hj)). lia. Qed.
Lemma ltau2_d : forall j, (j < N)%nat -> der (fun s => ltau2 (X s) cs j) (ltau_l2 dl cs j).
Proof using V In_range.
  intros j Hj. destruct (v_layer _ (proj1 (In_range j Hj))) as (_ & Hl & _). unfold ltau2, ltau_l2. eapply dl_eq; [ddq; apply inr_cell, Hj|]. cbv beta. field. apply inr_cell, Hj.
Qed.
Lemma btran2_d : forall j, (j <= N)%nat -> der (fun s => btran2 (X s) n_layers cs j) (btran_l2 d dl n_layers cs j).
Proof using V In_range.
  intros j Hj. unfold btran2, btran_l2. destruct (Nat.ltb_spec j N) as [L|L]; [|apply v_beam; lia].
  destruct (v_layer _ (proj1 (In_range j L))) as (_ & _ & Ha). pose proof (ltau2_d j L) as Ht. pose proof (v_beam (index cs j) ltac:(pose proof (proj1 (In_range j L)); lia)) as Hb.
  eapply dl_eq; [ddq|]. cbv beta. ring.
Qed.
Lemma T_d : forall j q, (j < N)%nat -> (q < n)%nat -> der (fun s => T (X s) cs j q) (W d dl cs j q).
Proof using V In_range Qx.
  intros j q Hj Hq. unfold T, W. apply (derivable_pt_lim_ext (fun s => exp (- ltau2 (X s) cs j / s_qx d q))). { intros s. destruct (fixed s) as (_ & -> & _). reflexivity. }
  pose proof (ltau2_d j Hj) as Ht. eapply dl_eq; [ddq; apply Qx, Hq|]. cbv beta. unfold T. field. apply Qx, Hq.
Qed.
Lemma E_d : forall j q, (j < N)%nat -> (q < n)%nat -> der (fun s => E (X s) cs j q) (F d dl cs j q).
Proof using V In_range Qx. intros j q Hj Hq. unfold E, F. pose proof (T_d j q Hj Hq). eapply dl_eq; [ddq|]. ring. Qed.
Definition vd (f : R -> nat -> vec) (f_l : nat -> vec) (m : nat) : Prop := forall j q, (j < m)%nat -> (q < n)%nat -> der (fun s => f s j q) (f_l j q).
Lemma climb_d : forall add add_l start start_l, vd add add_l N -> (forall q, (q < n)%nat -> der (fun s => start s q) (start_l q)) ->
  forall c q, (c <= N)%nat -> (q < n)%nat -> der (fun s => climb (X s) cs (add s) (start s) c q) (climb_l d dl cs (add p) add_l (start p) start_l c q).
Proof using V In_range Qx.
  intros add add_l start start_l A B c. induction c as [|c IH]; intros q Hc Hq; cbn [climb climb_l]; [apply B, Hq|].
  pose proof (T_d (N - S c) q ltac:(lia) Hq) as HT. pose proof (IH q ltac:(lia) Hq) as Hc'. pose proof (A (N - S c)%nat q ltac:(lia) Hq) as HA. eapply dl_eq; [ddq|]. cbv beta. ring.
Qed.
Lemma descend_d : forall add add_l start start_l, vd add add_l N -> (forall q, (q < n)%nat -> der (fun s => start s q) (start_l q)) ->
  forall c q, (c <= N)%nat -> (q < n)%nat -> der (fun s => descend (X s) cs (add s) (start s) c q) (descend_l d dl cs (add p) add_l (start p) start_l c q).
Proof using V In_range Qx.
  intros add add_l start start_l A B c. induction c as [|c IH]; intros q Hc Hq; cbn [descend descend_l]; [apply B, Hq|].
  pose proof (T_d c q ltac:(lia) Hq) as HT. pose proof (IH q ltac:(lia) Hq) as Hc'. pose proof (A c q ltac:(lia) Hq) as HA. eapply dl_eq; [ddq|]. cbv beta. ring.
Qed.
Definition fd (f : R -> field) (f_l : field) : Prop := forall j q, (j <= N)%nat -> (q < n)%nat -> der (fun s => up (f s) j q) (up f_l j q) /\ der (fun s => down (f s) j q) (down f_l j q).
Lemma strength_d : forall j, (j < N)%nat -> der (fun s => beam_strength (X s) n_layers cs j) (beam_strength_l d dl n_layers cs j).
Proof using V In_range.
  intros j Hj. unfold beam_strength, beam_strength_l. apply (derivable_pt_lim_ext (fun s => s_F0 d / (4 * PI) / 2 * s_omega (X s) (index cs j) * (btran2 (X s) n_layers cs j + btran2 (X s) n_layers cs (S j)))).
  { intros s. destruct (fixed s) as (-> & _). reflexivity. }
  destruct (v_layer _ (proj1 (In_range j Hj))) as (Ho & _ & _). pose proof (btran2_d j ltac:(lia)) as B1. pose proof (btran2_d (S j) ltac:(lia)) as B2.
  set (c := s_F0 d / (4 * PI) / 2). eapply dl_eq; [ddq|]. cbv beta. ring.
Qed.
Lemma once_d : forall (P : R -> nat -> vec) P_l, (forall k q, (k < n_layers)%nat -> (q < n)%nat -> der (fun s => P s k q) (only (mk k) (P_l k q))) ->
  vd (fun s k q => beam_strength (X s) n_layers cs k * E (X s) cs k q * P s (index cs k) q) (once_l d dl mk n_layers cs (P p) P_l) N.
Proof using V In_range Qx.
  intros P P_l HP j q Hj Hq. pose proof (strength_d j Hj) as H1. pose proof (E_d j q Hj Hq) as H2. pose proof (HP _ q (proj1 (In_range j Hj)) Hq) as H3. cbv beta.
  eapply dl_eq; [ddq|]. cbv beta. unfold once_l, only. destruct (mk (index cs j)); ring.
Qed.
Lemma first_d : fd (fun s => first (X s) n_layers cs) (first_l d dl mk n_layers cs).
Proof using V In_range Qx.
  destruct V as (_ & _ & _ & VP & _ & _ & VB). intros j q Hj Hq. cbn [first first_l up down]. split.
  - apply (climb_d (fun s k q => beam_strength (X s) n_layers cs k * E (X s) cs k q * s_P0p (X s) (index cs k) q) _ (fun s => s_bot (X s))); [|intros r Hr; apply VB, Hr|lia|exact Hq].
    apply (once_d (fun s => s_P0p (X s))). intros k r Hk Hr. apply VP; assumption.
  - apply (descend_d (fun s k q => beam_strength (X s) n_layers cs k * E (X s) cs k q * s_P0m (X s) (index cs k) q) _ (fun s => s_top (X s))); [|intros r Hr; apply VB, Hr|lia|exact Hq].
    apply (once_d (fun s => s_P0m (X s))). intros k r Hk Hr. apply VP; assumption.
Qed.
Definition md2 (a : R -> mat) (a_l : mat) : Prop := forall q i, (q < n)%nat -> (i < n)%nat -> der (fun s => a s q i) (a_l q i).
Lemma scaled_d : forall (P : R -> mat) P_l j, (j < N)%nat -> (forall q i, (q < n)%nat -> (i < n)%nat -> der (fun s => P s q i) (only (mk (index cs j)) (P_l q i))) ->
  md2 (fun s => scaled (X s) cs (P s) j) (scaled_l d dl mk cs (P p) P_l j).
Proof using V In_range.
  intros P P_l j Hj HP q i Hq Hi. unfold scaled, scaled_l. apply (derivable_pt_lim_ext (fun s => P s q i * (part d * s_omega (X s) (index cs j) * s_qw d i))).
  { intros s. destruct (fixed s) as (_ & _ & -> & Z). unfold part. rewrite Z. reflexivity. }
  destruct (v_layer _ (proj1 (In_range j Hj))) as (Ho & _ & _). pose proof (HP q i Hq Hi) as H1. eapply dl_eq; [ddq|]. cbv beta. unfold only. destruct (mk (index cs j)); ring.
Qed.
Lemma mul_d : forall a a_l v v_l q, md2 a a_l -> (forall i, (i < n)%nat -> der (fun s => v s i) (v_l i)) -> (q < n)%nat ->
  der (fun s => mul m_quad n_stokes (a s) (v s) q) (mul m_quad n_stokes a_l (v p) q + mul m_quad n_stokes (a p) v_l q).
Proof using.
  clear. intros a a_l v v_l q A Vv Hq. unfold mul. rewrite <- total_plus. apply (dl_total n (fun i s => a s q i * v s i)). intros i Hi. apply (dl_mult (fun s => a s q i) (fun s => v s i)); [apply A; assumption|apply Vv, Hi].
Qed.
Lemma ends_d : forall f f_l j i, (forall j q, (j <= N)%nat -> (q < n)%nat -> der (fun s => f s j q) (f_l j q)) -> (j < N)%nat -> (i < n)%nat -> der (fun s => ends (f s) j i) (ends f_l j i).
Proof using. clear. intros f f_l j i H Hj Hi. unfold ends. pose proof (H j i ltac:(lia) Hi). pose proof (H (S j) i ltac:(lia) Hi). ddq. Qed.
Lemma again_d : forall (a b : R -> nat -> mat) a_l b_l (u v : R -> nat -> vec) u_l v_l,
  (forall j, (j < N)%nat -> md2 (fun s => a s j) (a_l j)) -> (forall j, (j < N)%nat -> md2 (fun s => b s j) (b_l j)) ->
  (forall j q, (j <= N)%nat -> (q < n)%nat -> der (fun s => u s j q) (u_l j q)) -> (forall j q, (j <= N)%nat -> (q < n)%nat -> der (fun s => v s j q) (v_l j q)) ->
  vd (fun s k q => E (X s) cs k q * (mul m_quad n_stokes (a s k) (ends (u s) k) q + mul m_quad n_stokes (b s k) (ends (v s) k) q))
     (again_l d dl cs m_quad n_stokes (a p) a_l (b p) b_l (u p) u_l (v p) v_l) N.
Proof using V In_range Qx.
  intros a b a_l b_l u v u_l v_l A B U VV j q Hj Hq.
  pose proof (E_d j q Hj Hq) as H1.
  pose proof (mul_d (fun s => a s j) (a_l j) (fun s => ends (u s) j) (ends u_l j) q (A j Hj) (fun i Hi => ends_d u u_l j i U Hj Hi) Hq) as H2.
  pose proof (mul_d (fun s => b s j) (b_l j) (fun s => ends (v s) j) (ends v_l j) q (B j Hj) (fun i Hi => ends_d v v_l j i VV Hj Hi) Hq) as H3.
  cbv beta in *. eapply dl_eq; [ddq|]. cbv beta. unfold again_l. ring.
Qed.
Lemma mats_d : forall j, (j < N)%nat -> md2 (fun s => t_p (X s) cs j) (t_p_l d dl mk cs j) /\ md2 (fun s => r_p (X s) cs j) (r_p_l d dl mk cs j) /\
  md2 (fun s => t_m (X s) cs vector j) (t_m_l d dl mk cs vector j) /\ md2 (fun s => r_m (X s) cs vector j) (r_m_l d dl mk cs vector j).
Proof using V In_range.
  intros j Hj. destruct V as (_ & _ & _ & _ & VP & _).
  assert (md2 (fun s => t_p (X s) cs j) (t_p_l d dl mk cs j)) as A1 by (apply (scaled_d (fun s => s_Ppp (X s) (index cs j))); [exact Hj|]; intros q i Hq Hi; apply (VP _ q i (proj1 (In_range j Hj)) Hq Hi)).
  assert (md2 (fun s => r_p (X s) cs j) (r_p_l d dl mk cs j)) as A2 by (apply (scaled_d (fun s => s_Pmp (X s) (index cs j))); [exact Hj|]; intros q i Hq Hi; apply (VP _ q i (proj1 (In_range j Hj)) Hq Hi)).
  refine (conj A1 (conj A2 _)). unfold t_m, t_m_l, r_m, r_m_l. destruct vector; [|split; assumption]. split.
  - apply (scaled_d (fun s => s_Pmm (X s) (index cs j))); [exact Hj|]. intros q i Hq Hi. apply (VP _ q i (proj1 (In_range j Hj)) Hq Hi).
  - apply (scaled_d (fun s => s_Ppm (X s) (index cs j))); [exact Hj|]. intros q i Hq Hi. apply (VP _ q i (proj1 (In_range j Hj)) Hq Hi).
Qed.
Lemma next_d : forall x x_l, fd x x_l -> fd (fun s => next (X s) cs vector m_quad n_stokes (x s)) (next_l d dl mk n_layers cs vector m_quad n_stokes (x p) x_l).
Proof using V In_range Qx.
  intros x x_l Hx j q Hj Hq. pose proof V as (_ & _ & _ & _ & _ & VS & VB). cbn [next next_l up down]. split.
  - apply (climb_d (fun s k q => E (X s) cs k q * (mul m_quad n_stokes (t_p (X s) cs k) (ends (up (x s)) k) q + mul m_quad n_stokes (r_m (X s) cs vector k) (ends (down (x s)) k) q)) _
            (fun s => match s_Rs (X s) with None => fun _ => 0 | Some r => mul m_quad n_stokes r (down (x s) N) end)); [| |lia|exact Hq].
    + apply (again_d (fun s => t_p (X s) cs) (fun s => r_m (X s) cs vector) _ _ (fun s => up (x s)) (fun s => down (x s))).
      * intros k Hk. apply mats_d, Hk.
      * intros k Hk. apply mats_d, Hk.
      * intros k r Hk Hr. apply Hx; assumption.
      * intros k r Hk Hr. apply Hx; assumption.
    + intros r Hr. destruct VS as [VS|(rs & VS & VD)].
      * rewrite VS. apply (derivable_pt_lim_ext (fun _ => 0)); [intros s; rewrite VS; reflexivity|apply dl_const].
      * rewrite VS. apply (derivable_pt_lim_ext (fun s => mul m_quad n_stokes (rs s) (down (x s) N) r)); [intros s; rewrite VS; reflexivity|].
        eapply dl_eq; [apply (mul_d rs (fun q i => only (mk n_layers) (l_Rs dl q i)) (fun s => down (x s) N) (down x_l N) r); [exact VD|intros i Hi; apply Hx; [lia|exact Hi]|exact Hr]|].
        rewrite Rplus_comm. f_equal. unfold mul, only. destruct (mk n_layers); [reflexivity|]. rewrite (total_ext n _ (fun _ => 0 * 0)) by (intros; ring). rewrite total_scale. ring.
  - apply (descend_d (fun s k q => E (X s) cs k q * (mul m_quad n_stokes (r_p (X s) cs k) (ends (up (x s)) k) q + mul m_quad n_stokes (t_m (X s) cs vector k) (ends (down (x s)) k) q)) _ (fun s => s_top (X s)));
      [|intros r Hr; apply VB, Hr|lia|exact Hq].
    apply (again_d (fun s => r_p (X s) cs) (fun s => t_m (X s) cs vector) _ _ (fun s => up (x s)) (fun s => down (x s))).
    * intros k Hk. apply mats_d, Hk.
    * intros k Hk. apply mats_d, Hk.
    * intros k r Hk Hr. apply Hx; assumption.
    * intros k r Hk Hr. apply Hx; assumption.
Qed.

(** * The loop *)
Lemma continuous_around : forall f l (P : R -> Prop), der f l -> forall c, f p <> c -> around p (fun s => (f s < c <-> f p < c)).
Proof using.
  clear. intros f l _ D c Ne. assert (continuity_pt f p) as C by (apply derivable_continuous_pt; exists l; exact D).
  assert (0 < Rabs (f p - c)) as Pos by (apply Rabs_pos_lt; lra).
  destruct (C (Rabs (f p - c)) Pos) as (e & E0 & E1). exists e. split; [exact E0|]. intros t Ht.
  destruct (Req_dec t p) as [->|Nt]; [reflexivity|]. assert (Rabs (f t - f p) < Rabs (f p - c)) as L.
  { apply (E1 t). split; [split; [exact Logic.I|intros q; apply Nt; symmetry; exact q]|exact Ht]. }
  revert L. unfold Rabs. destruct (Rcase_abs (f p - c)), (Rcase_abs (f t - f p)); intros L; split; intros; lra.
Qed.
Variables (tol : R).
Notation ord s k := (nth_order (X s) n_layers cs vector m_quad n_stokes k).
Fixpoint ord_l (k : nat) : field := match k with O => first_l d dl mk n_layers cs | S k => next_l d dl mk n_layers cs vector m_quad n_stokes (ord p k) (ord_l k) end.
Lemma ord_d : forall k, fd (fun s => ord s k) (ord_l k).
Proof using V In_range Qx. induction k as [|k IH]; [exact first_d|]. exact (next_d (fun s => ord s k) (ord_l k) IH). Qed.
Definition lesser_top (s : R) (k : nat) : R := greater (peak n_stokes (up (ord s k) 0%nat) m_quad) (peak n_stokes (down (ord s k) N) m_quad).
Lemma around_all : forall m (P : R -> nat -> Prop), (forall i, (i < m)%nat -> around p (fun s => P s i)) -> around p (fun s => forall i, (i < m)%nat -> P s i).
Proof using.
  clear. intros m P. induction m as [|m IH]; intros H. { apply around_true. intros s i Hi. lia. }
  eapply around_imp; [|apply (around_and _ _ _ (IH (fun i Hi => H i ltac:(lia))) (H m ltac:(lia)))]. intros s [A B] i Hi. destruct (Nat.eq_dec i m) as [->|]; [exact B|apply A; lia].
Qed.
Lemma spent_around : forall k, (0 < n_stokes)%nat -> (forall i, (i <= m_quad)%nat -> up (ord p k) 0 (i * n_stokes)%nat <> tol /\ down (ord p k) N (i * n_stokes)%nat <> tol) ->
  around p (fun s => lesser_top s k < tol <-> lesser_top p k < tol).
Proof using V In_range Qx.
  intros k Ns Ne. eapply around_imp; [|apply (around_all (S m_quad) (fun s i => (up (ord s k) 0%nat (i * n_stokes)%nat < tol <-> up (ord p k) 0%nat (i * n_stokes)%nat < tol) /\ (down (ord s k) N (i * n_stokes)%nat < tol <-> down (ord p k) N (i * n_stokes)%nat < tol)))].
  - intros s H. unfold lesser_top. rewrite !greater_lt, !peak_lt. split; intros [A B]; split; intros i Hi; apply (H i); auto; lia.
  - intros i Hi. destruct (Ne i ltac:(lia)) as [N1 N2]. destruct (ord_d k 0%nat (i * n_stokes)%nat ltac:(lia) ltac:(nia)) as [D1 _]. destruct (ord_d k N (i * n_stokes)%nat ltac:(lia) ltac:(nia)) as [_ D2].
    apply around_and; [exact (continuous_around _ _ (fun _ => True) D1 _ N1)|exact (continuous_around _ _ (fun _ => True) D2 _ N2)].
Qed.
Lemma orders_d : forall max fuel k (a : R -> option R) (top bottom : R -> vec) top_l bottom_l, (0 < n_stokes)%nat -> (S k + fuel <= max)%nat ->
  (forall j i, (0 < j < max)%nat -> (i <= m_quad)%nat -> up (ord p j) 0 (i * n_stokes)%nat <> tol /\ down (ord p j) N (i * n_stokes)%nat <> tol) ->
  around p (fun s => match a s with None => True | Some a => ~ a < tol end) ->
  (forall q, (q < n)%nat -> der (fun s => top s q) (top_l q) /\ der (fun s => bottom s q) (bottom_l q)) ->
  forall q, (q < n)%nat ->
    der (fun s => fst (orders (X s) cs vector m_quad n_stokes tol fuel (ord s k) (a s) (top s) (bottom s)) q) (fst (orders_l d dl mk n_layers cs vector m_quad n_stokes tol fuel (ord p k) (ord_l k) (a p) top_l bottom_l) q) /\
    der (fun s => snd (orders (X s) cs vector m_quad n_stokes tol fuel (ord s k) (a s) (top s) (bottom s)) q) (snd (orders_l d dl mk n_layers cs vector m_quad n_stokes tol fuel (ord p k) (ord_l k) (a p) top_l bottom_l) q).
Proof using V In_range Qx.
  intros max fuel. induction fuel as [|fuel IH]; intros k a top bottom top_l bottom_l Ns Mx Ne Ha HT q Hq; cbn [orders orders_l]; [apply HT, Hq|].
  assert (forall s, (match a s with None => True | Some a => ~ a < tol end) -> (lesser (a s) (lesser_top s (S k)) < tol <-> lesser_top s (S k) < tol)) as Ls.
  { intros s H. unfold lesser. destruct (a s) as [b|]; [|reflexivity]. destruct (Rlt_dec b _); split; intros; lra. }
  pose proof (spent_around (S k) Ns (fun i Hi => Ne (S k) i ltac:(lia) Hi)) as Sp.
  change (next_l d dl mk n_layers cs vector m_quad n_stokes (ord p k) (ord_l k)) with (ord_l (S k)).
  change (next d cs vector m_quad n_stokes (ord p k)) with (ord p (S k)). fold (lesser_top p (S k)).
  assert (forall q, (q < n)%nat -> der (fun s => top s q + up (ord s (S k)) 0%nat q) (top_l q + up (ord_l (S k)) 0%nat q) /\ der (fun s => bottom s q + down (ord s (S k)) N q) (bottom_l q + down (ord_l (S k)) N q)) as HT'.
  { intros r Hr. destruct (HT r Hr) as [A B]. destruct (ord_d (S k) 0%nat r ltac:(lia) Hr) as [C _]. destruct (ord_d (S k) N r ltac:(lia) Hr) as [_ D]. split; ddq. }
  destruct (Rlt_dec (lesser (a p) (lesser_top p (S k))) tol) as [L|L].
  - assert (around p (fun s => lesser (a s) (lesser_top s (S k)) < tol)) as Ar.
    { eapply around_imp; [|apply (around_and _ _ _ Ha Sp)]. intros s [A B]. apply Ls; [exact A|]. apply B. apply Ls in L; [exact L|]. exact (here _ _ Ha). }
    split.
    + eapply eq_around; [|apply (HT' q Hq)]. eapply around_imp; [|exact Ar]. intros s A. cbv beta. change (next (X s) cs vector m_quad n_stokes (ord s k)) with (ord s (S k)). fold (lesser_top s (S k)). destruct (Rlt_dec _ tol); [reflexivity|contradiction].
    + eapply eq_around; [|apply (HT' q Hq)]. eapply around_imp; [|exact Ar]. intros s A. cbv beta. change (next (X s) cs vector m_quad n_stokes (ord s k)) with (ord s (S k)). fold (lesser_top s (S k)). destruct (Rlt_dec _ tol); [reflexivity|contradiction].
  - assert (around p (fun s => ~ lesser (a s) (lesser_top s (S k)) < tol)) as Ar.
    { eapply around_imp; [|apply (around_and _ _ _ Ha Sp)]. intros s [A B] C. apply L. apply Ls; [exact (here _ _ Ha)|]. apply B. apply Ls in C; assumption. }
    destruct (IH (S k) (fun s => Some (lesser (a s) (lesser_top s (S k)))) (fun s q => top s q + up (ord s (S k)) 0%nat q) (fun s q => bottom s q + down (ord s (S k)) N q)
      (fun q => top_l q + up (ord_l (S k)) 0%nat q) (fun q => bottom_l q + down (ord_l (S k)) N q) Ns ltac:(lia) Ne Ar HT' q Hq) as [R1 R2].
    split.
    + eapply eq_around; [|exact R1]. eapply around_imp; [|exact Ar]. intros s A. cbv beta. change (next (X s) cs vector m_quad n_stokes (ord s k)) with (ord s (S k)). fold (lesser_top s (S k)). destruct (Rlt_dec _ tol); [contradiction|reflexivity].
    + eapply eq_around; [|exact R2]. eapply around_imp; [|exact Ar]. intros s A. cbv beta. change (next (X s) cs vector m_quad n_stokes (ord s k)) with (ord s (S k)). fold (lesser_top s (S k)). destruct (Rlt_dec _ tol); [contradiction|reflexivity].
Qed.
Lemma summed_d : forall max_os, (0 < n_stokes)%nat ->
  (forall j i, (0 < j < max_os)%nat -> (i <= m_quad)%nat -> up (ord p j) 0 (i * n_stokes)%nat <> tol /\ down (ord p j) N (i * n_stokes)%nat <> tol) ->
  forall q, (q < n)%nat -> der (fun s => fst (summed (X s) n_layers cs vector m_quad n_stokes max_os tol) q) (fst (summed_l d dl mk n_layers cs vector m_quad n_stokes max_os tol) q) /\
    der (fun s => snd (summed (X s) n_layers cs vector m_quad n_stokes max_os tol) q) (snd (summed_l d dl mk n_layers cs vector m_quad n_stokes max_os tol) q).
Proof using V In_range Qx.
  intros max_os Ns Ne q Hq. unfold summed, summed_l.
  apply (orders_d (Nat.max 1 max_os) (max_os - 1) 0 (fun _ => None) (fun s => up (first (X s) n_layers cs) 0%nat) (fun s => down (first (X s) n_layers cs) N)); [exact Ns|lia| | |intros r Hr; split; apply first_d; [lia|exact Hr|lia|exact Hr]|exact Hq].
  - intros j i Hj Hi. apply Ne; [lia|exact Hi].
  - apply around_true. intros s. exact Logic.I.
Qed.
End D.

(** * The cutting *)
Lemma parts_around : forall mt (l : R -> R) p l', 0 < mt -> derivable_pt_lim l p l' -> (forall z, l p <> IZR z * mt \/ (z < 1)%Z) -> around p (fun s => parts mt (l s) = parts mt (l p)).
Proof.
  intros mt l p l' M D Ne. assert (derivable_pt_lim (fun s => l s / mt) p (l' / mt)) as D'. { eapply dl_eq; [ddq; lra|]. cbv beta. field. lra. }
  assert (forall z, (1 <= z)%Z -> l p / mt <> IZR z) as Ne'. { intros z Hz H. destruct (Ne z) as [A|A]; [|lia]. apply A. rewrite <- H. field. lra. }
  assert (forall z, (1 <= z)%Z -> around p (fun s => l s / mt < IZR z <-> l p / mt < IZR z)) as Ar by (intros z Hz; exact (continuous_around p _ _ (fun _ => True) D' _ (Ne' z Hz))).
  destruct (Rlt_dec 1 (l p / mt)) as [L|L].
  - destruct (base_Int_part (l p / mt)) as [I1 I2]. set (z := Int_part (l p / mt)) in *. assert (1 <= z)%Z as Hz. { assert (0 < z)%Z by (apply lt_IZR; lra). lia. }
    assert (derivable_pt_lim (fun s => - (l s / mt)) p (- (l' / mt))) as Dn by exact (derivable_pt_lim_opp _ _ _ D').
    pose proof (continuous_around p _ _ (fun _ => True) Dn (-1) ltac:(lra)) as An.
    eapply around_imp; [|apply (around_and _ _ _ (around_and _ _ _ (Ar z Hz) (Ar (z + 1)%Z ltac:(lia))) (around_and _ _ _ An (Ar 2147483647%Z ltac:(lia))))]. intros s [[A B] [C Dd]].
    rewrite plus_IZR in B. assert (l s / mt < IZR z + 1) as B1 by (apply B; lra). assert (~ l s / mt < IZR z) as A1 by (intros H; apply A in H; lra). assert (- (l s / mt) < -1) as C1 by (apply C; lra).
    assert (Int_part (l s / mt) = z) as Q.
    { destruct (base_Int_part (l s / mt)) as [J1 J2]. assert (Int_part (l s / mt) < z + 1)%Z by (apply lt_IZR; rewrite plus_IZR; lra). assert (z < Int_part (l s / mt) + 1)%Z by (apply lt_IZR; rewrite plus_IZR; lra). lia. }
    unfold parts, over. destruct (Req_EM_T mt 0); [lra|]. cbn [bind]. rewrite Q. fold z. destruct (Rlt_dec 1 (l p / mt)); [|contradiction]. destruct (Rlt_dec 1 (l s / mt)); [|lra].
    destruct (Rlt_dec (l s / mt) 2147483647), (Rlt_dec (l p / mt) 2147483647); tauto.
  - eapply around_imp; [|exact (Ar 1%Z ltac:(lia))]. intros s A. unfold parts, over. destruct (Req_EM_T mt 0); [lra|]. cbn [bind]. destruct (Rlt_dec 1 (l p / mt)); [contradiction|].
    destruct (Rlt_dec 1 (l s / mt)) as [Bad|]; [|reflexivity]. exfalso. pose proof (Ne' 1%Z ltac:(lia)). assert (l s / mt < 1) by (apply A; lra). lra.
Qed.

Lemma cells_around : forall mt (X : R -> medium) p, 0 < mt -> forall c k, (forall i, (k <= i < k + c)%nat -> around p (fun s => parts mt (s_ltau (X s) i) = parts mt (s_ltau (X p) i))) ->
  around p (fun s => cells mt (X s) k c = cells mt (X p) k c).
Proof.
  intros mt X p M c. induction c as [|c IH]; intros k H. { apply around_true. reflexivity. }
  eapply around_imp; [|apply (around_and _ _ _ (H k ltac:(lia)) (IH (S k) ltac:(intros i Hi; apply H; lia)))]. intros s [A B]. cbn [cells]. rewrite A, B. reflexivity.
Qed.
