(** The light scattered twice, layer by layer *)
From Coq Require Import Reals Bool Arith List Lia Lra.
From Verif Require Import Base DeltaMSpec DeltaMProofs BeamProofs SingleProofs AddingModel ScatProperties TwoModel ViewDProofs SosModel TwoOsSpec TwoOsModel.
Import ListNotations.
Open Scope R_scope.

Lemma fades_out : forall f y L, (forall t, 0 <= t <= L -> derivable_pt_lim f t (y * f t)) -> f L = 0 -> forall t, 0 <= t <= L -> f t = 0.
Proof.
  intros f y L D Z t Ht. destruct (Req_dec t L) as [->|ne]; [exact Z|].
  destruct (MVT_cor2 (fun s => exp (- y * s) * f s) (fun s => 0) t L) as (c & C & _); [lra| |].
  - intros c Hc. pose proof (D c ltac:(lra)) as Dc. pose proof (dl_id c). eapply dl_eq; [ddq|]. cbv beta. ring.
  - rewrite Z, Rmult_0_r in C. assert (exp (- y * t) * f t = 0) as X by lra. apply Rmult_integral in X. destruct X as [X|X]; [pose proof (exp_pos (- y * t)); lra|exact X].
Qed.

(** One layer with the thickness below a point as variable *)
Section Formulas.
Variables (a x y mu0 : R).
Hypothesis X : x + a <> 0.
Hypothesis Y : y + a <> 0.
Hypothesis XY : y + x <> 0.
Hypothesis M : mu0 <> 0.
Definition one_at (r0 I1 s : R) : R := exp (- (x + a) * s) * I1 + x / (4 * mu0 * (x + a)) * r0 * (1 - exp (- (x + a) * s)).
Lemma one_d : forall r0 I1 s, derivable_pt_lim (one_at r0 I1) s (- (x + a) * one_at r0 I1 s + x / (4 * mu0) * r0).
Proof using X M. clear Y XY. intros r0 I1 s. unfold one_at. pose proof (dl_id s). eapply dl_eq; [ddq|]. cbv beta. field. split; assumption. Qed.
Definition back_at (rm Rb s : R) : R := Rb * exp (- (y + x) * s) + y * x / (y + x) * (1 - exp (- (y + x) * s)) * rm.
Lemma back_d : forall rm Rb s, derivable_pt_lim (back_at rm Rb) s (- (y + x) * back_at rm Rb s + y * x * rm).
Proof using XY. clear X Y M. intros rm Rb s. unfold back_at. pose proof (dl_id s). eapply dl_eq; [ddq; assumption|]. cbv beta. field. assumption. Qed.
Definition phi2 (s : R) : R := if Req_EM_T y x then s * (exp (- s * y) * exp (- s * a)) else (exp (- s * y) * exp (- s * a) - exp (- s * x) * exp (- s * a)) / (x - y).
Lemma phi2_d : forall s, derivable_pt_lim phi2 s (- (y + a) * phi2 s + exp (- s * x) * exp (- s * a)).
Proof using.
  clear. intros s. unfold phi2. pose proof (dl_id s). destruct (Req_EM_T y x) as [e|e].
  - eapply dl_eq; [ddq|]. cbv beta. rewrite e. ring.
  - eapply dl_eq; [ddq; lra|]. cbv beta. field. lra.
Qed.
Definition phi3 (s : R) : R := if Req_EM_T a x then s * (exp (- s * y) * exp (- s * x)) else (exp (- s * y) * exp (- s * x) - exp (- s * a) * exp (- s * y)) / (a - x).
Lemma phi3_d : forall s, derivable_pt_lim phi3 s (- (y + a) * phi3 s + exp (- s * x) * exp (- s * y)).
Proof using.
  clear. intros s. unfold phi3. pose proof (dl_id s). destruct (Req_EM_T a x) as [e|e].
  - eapply dl_eq; [ddq|]. cbv beta. rewrite e. ring.
  - eapply dl_eq; [ddq; lra|]. cbv beta. field. lra.
Qed.
Definition psi (s : R) : R := exp (- s * y) * exp (- s * a).
Definition term_at (tp rm r0 t0 I1 Rb s : R) : R :=
  y * (tp * (phi2 s * I1 + r0 * (x * 1 / mu0 / (4 * (x + a) * (y + a)) * (1 - psi s - (y + a) * phi2 s)))) +
  a / 4 * ((phi3 s * Rb + rm * (x * y / ((y + a) * (x + y)) * (1 - psi s - (y + a) * phi3 s))) * t0).
Lemma term_d : forall tp rm r0 t0 I1 Rb s, derivable_pt_lim (term_at tp rm r0 t0 I1 Rb) s
  (- (y + a) * term_at tp rm r0 t0 I1 Rb s + (y * tp * one_at r0 I1 s + a / 4 * back_at rm Rb s * t0)).
Proof using X Y XY M.
  intros tp rm r0 t0 I1 Rb s. assert (x + y <> 0) by lra. unfold term_at, psi. pose proof (dl_id s). pose proof (phi2_d s). pose proof (phi3_d s). eapply dl_eq; [ddq|]; cbv beta.
  unfold one_at, back_at. replace (- (x + a) * s) with (- s * x + - s * a) by ring. replace (- (y + x) * s) with (- s * y + - s * x) by ring. rewrite !exp_plus. field. repeat split; assumption.
Qed.
Lemma phi2_0 : phi2 0 = 0. Proof using. clear. unfold phi2. rewrite Ropp_0, !Rmult_0_l, exp_0. destruct (Req_EM_T y x); unfold Rdiv; ring. Qed.
Lemma phi3_0 : phi3 0 = 0. Proof using. clear. unfold phi3. rewrite Ropp_0, !Rmult_0_l, exp_0. destruct (Req_EM_T a x); unfold Rdiv; ring. Qed.
Lemma term_0 : forall tp rm r0 t0 I1 Rb, term_at tp rm r0 t0 I1 Rb 0 = 0.
Proof using. clear. intros. unfold term_at, psi. rewrite phi2_0, phi3_0, Ropp_0, !Rmult_0_l, exp_0. replace (1 - 1 * 1 - (y + a) * 0) with 0 by ring. ring. Qed.
Lemma one_0 : forall r0 I1, one_at r0 I1 0 = I1. Proof using. clear. intros. unfold one_at. rewrite Rmult_0_r, exp_0. ring. Qed.
Lemma back_0 : forall rm Rb, back_at rm Rb 0 = Rb. Proof using. clear. intros. unfold back_at. rewrite Rmult_0_r, exp_0. ring. Qed.
End Formulas.
Lemma dl_from : forall g L t l, derivable_pt_lim g (L - t) l -> derivable_pt_lim (fun s => g (L - s)) t (- l).
Proof.
  intros g L t l D. pose proof (dl_id t). assert (derivable_pt_lim (fun s => L - s) t (0 - 1)) as D1 by ddq.
  eapply dl_eq; [apply (derivable_pt_lim_comp (fun s => L - s) g t (0 - 1) l D1 D)|]. ring.
Qed.

Section Levels.
Variables (sk : sky) (n n_umus m : nat) (vector flag : bool) (u1 d1 u2 : nat -> R -> vec).
Notation nx := (n_xmus n n_umus flag).
Notation cosine := (xmus sk flag).
Hypothesis Mu : 0 < a_mu0 sk.
Hypothesis Qx : forall q, (q < n)%nat -> 0 < a_qx sk q.
Hypothesis Vx : forall k, (k < nx)%nat -> 0 < cosine k.
Hypothesis Lt : forall j, (j < m)%nat -> 0 <= a_ltau sk j.
Hypothesis At : forall j, (j < m)%nat -> a_atran sk j = exp (- a_ltau sk j * a_as0 sk j).
Hypothesis As : forall j, (j < m)%nat -> a_as0 sk j * a_mu0 sk = 1.
Hypothesis Same : vector = true \/ forall j k q, (j < m)%nat -> (k < nx)%nat -> (q < n)%nat -> a_Ppm sk j k q = a_Pmp sk j k q.
Hypothesis Sc : scattered_twice sk n nx cosine m u1 d1 u2.
Notation F := (a_mu0 sk / PI).
Lemma as_pos : forall j, (j < m)%nat -> 0 < a_as0 sk j.
Proof using Mu As. intros j Hj. pose proof (As j Hj). destruct (Rlt_le_dec 0 (a_as0 sk j)); [assumption|]. nra. Qed.
Lemma x_pos : forall q, (q < n)%nat -> 0 < x sk q.
Proof using Qx. intros q Hq. unfold x. apply Rdiv_lt_0_compat; [lra|apply Qx, Hq]. Qed.
Lemma y_pos : forall k, (k < nx)%nat -> 0 < y sk flag k.
Proof using Vx. intros k Hk. unfold y. apply Rdiv_lt_0_compat; [lra|apply Vx, Hk]. Qed.
Lemma sun_d : forall j t, derivable_pt_lim (sun sk j) t (- a_as0 sk j * sun sk j t).
Proof using. clear. intros j t. unfold sun. pose proof (dl_id t). eapply dl_eq; [ddq|]. cbv beta. ring. Qed.
Lemma sun_0 : forall j, sun sk j 0 = arriving sk j. Proof using. clear. intros j. unfold sun. rewrite Rmult_0_r, exp_0. ring. Qed.
Lemma sun_L : forall j, sun sk j (a_ltau sk j) = arriving sk (S j). Proof using. reflexivity. Qed.

(** Light scattered once *)
Lemma once_in : forall c q t, (S c <= m)%nat -> (q < n)%nat -> 0 <= t <= a_ltau sk (m - S c)%nat ->
  u1 (S (m - S c)%nat) 0 q = F * arriving sk (S (m - S c)%nat) * once sk m c q ->
  u1 (m - S c)%nat t q = F * sun sk (m - S c)%nat t * one_at (a_as0 sk (m - S c)%nat) (x sk q) (a_mu0 sk) (r_0 sk (m - S c)%nat q) (once sk m c q) (a_ltau sk (m - S c)%nat - t).
Proof using Mu Qx As Sc.
  intros c q t Hc Hq Ht E. set (j := (m - S c)%nat) in *. assert (j < m)%nat as Hj by (unfold j; lia). pose proof (as_pos j Hj) as A0. pose proof (x_pos q Hq) as X0. pose proof PI_RGT_0.
  destruct Sc as (S1 & _ & S3 & _).
  assert (forall s, 0 <= s <= a_ltau sk j -> u1 j s q - F * sun sk j s * one_at (a_as0 sk j) (x sk q) (a_mu0 sk) (r_0 sk j q) (once sk m c q) (a_ltau sk j - s) = 0) as Z; [|specialize (Z t Ht); lra].
  apply (fades_out _ (x sk q)).
  - intros s Hs. destruct (S1 j s q (conj Hj Hs) Hq) as [D _]. pose proof (sun_d j s) as D1.
    pose proof (dl_from _ (a_ltau sk j) s _ (one_d (a_as0 sk j) (x sk q) (a_mu0 sk) ltac:(lra) ltac:(lra) (r_0 sk j q) (once sk m c q) (a_ltau sk j - s))) as D2. cbv beta in D2.
    assert (derivable_pt_lim (fun s => sun sk j s) s (- a_as0 sk j * sun sk j s)) as D1' by exact D1. pose proof (Qx q Hq).
    eapply dl_eq; [ddq|]. cbv beta. unfold r_0, x. field. repeat split; lra.
  - rewrite (proj1 (S3 j q Hj Hq)), E, sun_L. replace (a_ltau sk j - a_ltau sk j) with 0 by ring. rewrite one_0. ring.
Qed.
Lemma once_is : forall c q, (S c <= m)%nat -> (q < n)%nat ->
  one_at (a_as0 sk (m - S c)%nat) (x sk q) (a_mu0 sk) (r_0 sk (m - S c)%nat q) (once sk m c q) (a_ltau sk (m - S c)%nat) = once sk m (S c) q.
Proof using Mu Qx As At.
  intros c q Hc Hq. cbn [once]. set (j := (m - S c)%nat) in *. assert (j < m)%nat as Hj by (unfold j; lia). pose proof (as_pos j Hj) as A0. pose proof (x_pos q Hq) as X0.
  unfold one_at, Psi1x, alpha. rewrite (At j Hj), <- exp_plus. replace (- a_ltau sk j * x sk q + - a_ltau sk j * a_as0 sk j) with (- (x sk q + a_as0 sk j) * a_ltau sk j) by ring. field. lra.
Qed.
Lemma once_level : forall c q, (c <= m)%nat -> (q < n)%nat -> u1 (m - c)%nat 0 q = F * arriving sk (m - c)%nat * once sk m c q.
Proof using Mu Qx As At Sc Lt.
  intros c q Hc Hq. induction c as [|c IH].
  - rewrite Nat.sub_0_r. destruct Sc as (_ & _ & _ & _ & S5 & _). rewrite (proj2 (S5 q Hq)). cbn [once]. destruct (a_Rs sk) as [[r0 r]|]; [reflexivity|ring].
  - specialize (IH ltac:(lia)). replace (m - c)%nat with (S (m - S c)%nat) in IH by lia. rewrite (once_in c q 0 Hc Hq (conj (Rle_refl 0) (Lt (m - S c)%nat ltac:(lia))) IH).
    rewrite sun_0, Rminus_0_r, once_is by assumption. reflexivity.
Qed.

(** Light scattered twice *)
Lemma share_is : a_ sk = share sk. Proof using. clear. unfold a_, share. destruct (a_zeroth sk); lra. Qed.
Lemma back_is : forall c k q, (S c <= m)%nat -> (k < nx)%nat -> (q < n)%nat ->
  back_at (x sk q) (y sk flag k) (r_m sk vector (m - S c)%nat k q) (R_p sk m vector flag c k q) (a_ltau sk (m - S c)%nat) = R_p sk m vector flag (S c) k q.
Proof using.
  clear. intros c k q Hc Hk Hq. cbn [R_p]. set (j := (m - S c)%nat). unfold back_at, Psi3, beta, alpha. rewrite <- exp_plus.
  replace (- a_ltau sk j * y sk flag k + - a_ltau sk j * x sk q) with (- (y sk flag k + x sk q) * a_ltau sk j) by ring. ring.
Qed.
Definition twice_at (c k : nat) (s : R) : R :=
  let j := (m - S c)%nat in exp (- (y sk flag k + a_as0 sk j) * s) * twice sk n m vector flag c k +
    total n (fun q => term_at (a_as0 sk j) (x sk q) (y sk flag k) (a_mu0 sk) (t_p sk j k q) (r_m sk vector j k q) (r_0 sk j q) (t_0 sk j q) (once sk m c q) (R_p sk m vector flag c k q) s).
Lemma twice_is : forall c k, (S c <= m)%nat -> (k < nx)%nat -> twice_at c k (a_ltau sk (m - S c)%nat) = twice sk n m vector flag (S c) k.
Proof using At.
  clear - At. intros c k Hc Hk. unfold twice_at. cbn [twice]. set (j := (m - S c)%nat) in *. assert (j < m)%nat as Hj by (unfold j; lia).
  rewrite Rplus_assoc. f_equal.
  - unfold Psi1, beta. rewrite (At j Hj), <- exp_plus. f_equal. f_equal. ring.
  - rewrite <- !total_scale, <- total_plus. apply total_ext. intros q Hq. unfold term_at, w4_up, w4_down, Psi1, Phi2, Phi3, phi2, phi3, psi, beta, alpha. rewrite (At j Hj). reflexivity.
Qed.
Lemma twice_level : forall c k, (c <= m)%nat -> (k < nx)%nat ->
  u2 (m - c)%nat 0 k = F * arriving sk (m - c)%nat * twice sk n m vector flag c k + total n (fun q => R_p sk m vector flag c k q / x sk q * d1 (m - c)%nat 0 q).
Proof using Mu Qx Vx As At Sc Lt Same.
  intros c k Hc Hk. induction c as [|c IH].
  - rewrite Nat.sub_0_r. pose proof Sc as (_ & _ & _ & _ & _ & S6). rewrite (S6 k Hk). cbn [twice R_p]. destruct (a_Rs sk) as [[r0 r]|].
    + rewrite Rmult_0_r, Rplus_0_l. apply total_ext. intros q Hq. pose proof (x_pos q Hq). field. lra.
    + rewrite total_zero by (intros; unfold Rdiv; ring). ring.
  - specialize (IH ltac:(lia)). replace (m - c)%nat with (S (m - S c)%nat) in IH by lia. pose proof (fun q Hq => once_level c q ltac:(lia) Hq) as O1. replace (m - c)%nat with (S (m - S c)%nat) in O1 by lia.
    pose proof (twice_is c k Hc Hk) as Tw. rewrite <- Tw. pose proof (fun q Hq => back_is c k q Hc Hk Hq) as Bk.
    rewrite (total_ext n _ (fun q => back_at (x sk q) (y sk flag k) (r_m sk vector (m - S c)%nat k q) (R_p sk m vector flag c k q) (a_ltau sk (m - S c)%nat - 0) / x sk q * d1 (m - S c)%nat 0 q)) by (intros q Hq; rewrite Rminus_0_r, Bk by exact Hq; reflexivity).
    pose proof (fun q t => once_in c q t Hc) as Oi. unfold twice_at in *. clear Tw Bk. set (j := (m - S c)%nat) in *. assert (j < m)%nat as Hj by (unfold j; lia).
    pose proof (as_pos j Hj) as A0. pose proof (y_pos k Hk) as Y0. pose proof PI_RGT_0 as P0. destruct Sc as (S1 & S2 & S3 & S4 & _).
    set (i2 := fun s => exp (- (y sk flag k + a_as0 sk j) * s) * twice sk n m vector flag c k +
      total n (fun q => term_at (a_as0 sk j) (x sk q) (y sk flag k) (a_mu0 sk) (t_p sk j k q) (r_m sk vector j k q) (r_0 sk j q) (t_0 sk j q) (once sk m c q) (R_p sk m vector flag c k q) s)).
    set (Rb := fun q s => back_at (x sk q) (y sk flag k) (r_m sk vector j k q) (R_p sk m vector flag c k q) s).
    set (i1 := fun q s => one_at (a_as0 sk j) (x sk q) (a_mu0 sk) (r_0 sk j q) (once sk m c q) s).
    assert (forall t, 0 <= t <= a_ltau sk j -> u2 j t k - F * sun sk j t * i2 (a_ltau sk j - t) - total n (fun q => Rb q (a_ltau sk j - t) / x sk q * d1 j t q) = 0) as Z.
    + apply (fades_out _ (y sk flag k)).
      * intros t Ht. pose proof (S2 j t k (conj Hj Ht) Hk) as D. assert (derivable_pt_lim (fun s => sun sk j s) t (- a_as0 sk j * sun sk j t)) as D1 by apply sun_d.
        assert (derivable_pt_lim i2 (a_ltau sk j - t) (- (y sk flag k + a_as0 sk j) * i2 (a_ltau sk j - t) + total n (fun q => y sk flag k * t_p sk j k q * i1 q (a_ltau sk j - t) + a_as0 sk j / 4 * Rb q (a_ltau sk j - t) * t_0 sk j q))) as D2.
        { unfold i2. pose proof (dl_id (a_ltau sk j - t)) as Di.
          pose proof (total_dl n (fun q s => term_at (a_as0 sk j) (x sk q) (y sk flag k) (a_mu0 sk) (t_p sk j k q) (r_m sk vector j k q) (r_0 sk j q) (t_0 sk j q) (once sk m c q) (R_p sk m vector flag c k q) s) _ (a_ltau sk j - t)
            (fun q Hq => term_d (a_as0 sk j) (x sk q) (y sk flag k) (a_mu0 sk) ltac:(pose proof (x_pos q Hq); lra) ltac:(lra) ltac:(pose proof (x_pos q Hq); lra) ltac:(lra) (t_p sk j k q) (r_m sk vector j k q) (r_0 sk j q) (t_0 sk j q) (once sk m c q) (R_p sk m vector flag c k q) (a_ltau sk j - t))) as Dt.
          cbv beta in Dt. eapply dl_eq; [eapply (dl_plus (fun s => exp (- (y sk flag k + a_as0 sk j) * s) * twice sk n m vector flag c k) _ _ _ _); [ddq|exact Dt]|]. cbv beta. unfold Rb, i1.
          pose proof (total_plus n (fun q => - (y sk flag k + a_as0 sk j) * term_at (a_as0 sk j) (x sk q) (y sk flag k) (a_mu0 sk) (t_p sk j k q) (r_m sk vector j k q) (r_0 sk j q) (t_0 sk j q) (once sk m c q) (R_p sk m vector flag c k q) (a_ltau sk j - t))
            (fun q => y sk flag k * t_p sk j k q * one_at (a_as0 sk j) (x sk q) (a_mu0 sk) (r_0 sk j q) (once sk m c q) (a_ltau sk j - t) + a_as0 sk j / 4 * back_at (x sk q) (y sk flag k) (r_m sk vector j k q) (R_p sk m vector flag c k q) (a_ltau sk j - t) * t_0 sk j q)) as Ep.
          cbv beta in Ep. rewrite Ep, total_scale. ring. }
        apply dl_from in D2. cbv beta in D2.
        assert (derivable_pt_lim (fun s => total n (fun q => Rb q (a_ltau sk j - s) / x sk q * d1 j s q)) t
          (total n (fun q => - (- (y sk flag k + x sk q) * Rb q (a_ltau sk j - t) + y sk flag k * x sk q * r_m sk vector j k q) / x sk q * d1 j t q +
                             Rb q (a_ltau sk j - t) / x sk q * ((a_omega sk j * a_P0m sk j q * (sun sk j t / (4 * PI)) - d1 j t q) / a_qx sk q)))) as D3.
        { apply (total_dl n (fun q s => Rb q (a_ltau sk j - s) / x sk q * d1 j s q)). intros q Hq. pose proof (x_pos q Hq) as X0. destruct (S1 j t q (conj Hj Ht) Hq) as [_ Dd].
          pose proof (dl_from _ (a_ltau sk j) t _ (back_d (x sk q) (y sk flag k) ltac:(lra) (r_m sk vector j k q) (R_p sk m vector flag c k q) (a_ltau sk j - t))) as Db. cbv beta in Db.
          unfold Rb. eapply dl_eq; [ddq; lra|]. cbv beta. pose proof (Qx q Hq). field. lra. }
        eapply dl_eq; [ddq|]. cbv beta.
        set (T1 := total n (fun q => a_qw sk q * (a_Ppp sk j k q * u1 j t q + a_Ppm sk j k q * d1 j t q))).
        set (T2 := total n (fun q => y sk flag k * t_p sk j k q * i1 q (a_ltau sk j - t) + a_as0 sk j / 4 * Rb q (a_ltau sk j - t) * t_0 sk j q)).
        set (T4 := total n (fun q => Rb q (a_ltau sk j - t) / x sk q * d1 j t q)).
        match goal with |- context [total n ?f] => set (T3 := total n f) end.
        assert (T3 = F * sun sk j t * T2 + y sk flag k * T4 - y sk flag k * share sk * a_omega sk j * T1) as E3.
        { assert (forall (A B C : nat -> R) a b d, a * total n A + b * total n B + d * total n C = total n (fun q => a * A q + b * B q + d * C q)) as Tc by (intros; rewrite !total_plus, !total_scale; reflexivity).
          replace (F * sun sk j t * T2 + y sk flag k * T4 - y sk flag k * share sk * a_omega sk j * T1) with (F * sun sk j t * T2 + y sk flag k * T4 + - (y sk flag k * share sk * a_omega sk j) * T1) by ring.
          unfold T1, T2, T3, T4. rewrite Tc.
          apply total_ext. intros q Hq. rewrite (Oi q t Hq Ht (O1 q Hq)). fold (i1 q (a_ltau sk j - t)). pose proof (x_pos q Hq) as X0. pose proof (Qx q Hq) as Q0.
          assert (r_m sk vector j k q = a_Ppm sk j k q * (share sk * a_omega sk j * a_qw sk q)) as ->. { unfold r_m. rewrite share_is. destruct Same as [->|Sm]; [reflexivity|]. rewrite (Sm j k q Hj Hk Hq). destruct vector; reflexivity. }
          unfold t_p, t_0. rewrite share_is. assert (a_qx sk q = 1 / x sk q) as -> by (unfold x; field; lra). replace (a_mu0 sk) with (1 / a_as0 sk j) by (pose proof (As j Hj) as Ea; replace (1 / a_as0 sk j) with (a_as0 sk j * a_mu0 sk / a_as0 sk j) by (rewrite Ea; reflexivity); field; lra).
          field. repeat split; lra. }
        rewrite E3. replace (cosine k) with (1 / y sk flag k) by (pose proof (Vx k Hk); unfold y; field; lra). field. lra.
      * rewrite (S4 j k Hj Hk), IH, sun_L. replace (a_ltau sk j - a_ltau sk j) with 0 by ring. unfold i2. rewrite Rmult_0_r, exp_0, (total_zero n (fun q => term_at _ _ _ _ _ _ _ _ _ _ 0)) by (intros; apply term_0).
        rewrite (total_ext n (fun q => Rb q 0 / x sk q * d1 j (a_ltau sk j) q) (fun q => R_p sk m vector flag c k q / x sk q * d1 (S j) 0 q)) by (intros q Hq; unfold Rb; rewrite back_0, (proj2 (S3 j q Hj Hq)); reflexivity). ring.
    + specialize (Z 0 ltac:(pose proof (Lt j Hj); lra)). rewrite sun_0, Rminus_0_r in Z. unfold Rb in Z. fold (i2 (a_ltau sk j)). rewrite Rminus_0_r. lra.
Qed.
End Levels.
