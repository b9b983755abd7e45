(** Successive orders of scattering: the cutting, one order, their sum *)
From Coq Require Import Reals Bool Arith List ZArith Lia Lra.
From Verif Require Import Base DeltaMSpec DeltaMProofs BeamProperties AddingModel AddingDeriv AddingMat TwoModel SosSpec SosModel.
Import ListNotations.
Open Scope R_scope.

(** * The cutting *)
Lemma parts_ok : forall mt l c, 0 < mt -> parts mt l = Answer c -> (0 < c)%nat /\ l <= mt * INR c /\ ((1 < c)%nat -> mt * INR (c - 1) <= l).
Proof.
  intros mt l c M. unfold parts, over. destruct (Req_EM_T mt 0) as [e|_]; [lra|]. cbn [bind].
  destruct (Rlt_dec 1 (l / mt)) as [A|A].
  - destruct (Rlt_dec (l / mt) 2147483647); [|discriminate]. intros H. injection H as <-.
    destruct (base_Int_part (l / mt)) as [L U].
    assert (0 < Int_part (l / mt))%Z as P. { apply lt_IZR. lra. }
    set (z := Int_part (l / mt)) in *.
    assert (INR (Z.to_nat z) = IZR z) as Z1. { rewrite INR_IZR_INZ, Z2Nat.id by lia. reflexivity. }
    assert (l = mt * (l / mt)) as Q by (field; lra).
    refine (conj _ (conj _ _)); [lia| |].
    + rewrite S_INR, Z1. rewrite Q at 1. apply Rmult_le_compat_l; lra.
    + intros _. replace (S (Z.to_nat z) - 1)%nat with (Z.to_nat z) by lia. rewrite Z1. rewrite Q at 1. apply Rmult_le_compat_l; lra.
  - intros H. injection H as <-. refine (conj _ (conj _ _)); [lia| |lia]. cbn [INR].
    assert (l = mt * (l / mt)) as Q by (field; lra). rewrite Q. apply Rmult_le_compat_l; lra.
Qed.
Lemma cells_ok : forall mt md c k cs, 0 < mt -> cells mt md k c = Answer cs ->
  exists at_ : nat -> nat, at_ k = O /\ at_ (k + c)%nat = length cs /\ forall i, (k <= i < k + c)%nat -> exists n, (0 < n)%nat /\ at_ (S i) = (at_ i + n)%nat /\
    s_ltau md i <= mt * INR n /\ ((1 < n)%nat -> mt * INR (n - 1) <= s_ltau md i) /\ (at_ i + n <= length cs)%nat /\ forall j, (j < n)%nat -> nth (at_ i + j) cs (O, O, 1%nat) = (i, j, n).
Proof.
  intros mt md c. induction c as [|c IH]; intros k cs M; cbn [cells].
  - intros H. injection H as <-. exists (fun _ => O). refine (conj eq_refl (conj eq_refl _)). intros i Hi. lia.
  - destruct (parts mt (s_ltau md k)) as [n| | |] eqn:P; cbn [bind]; [|discriminate..].
    destruct (cells mt md (S k) c) as [r| | |] eqn:C; cbn [bind]; [|discriminate..].
    intros H. injection H as <-. destruct (IH _ _ M C) as (a & A0 & A1 & A2). destruct (parts_ok _ _ _ M P) as (N0 & N1 & N2).
    assert (length (map (fun j => (k, j, n)) (seq 0 n)) = n) as Ln by (rewrite map_length, seq_length; reflexivity).
    exists (fun i => if (i <=? k)%nat then O else (n + a i)%nat). refine (conj _ (conj _ _)).
    + rewrite Nat.leb_refl. reflexivity.
    + destruct (Nat.leb_spec (k + S c) k); [lia|]. rewrite app_length, Ln. replace (k + S c)%nat with (S k + c)%nat by lia. rewrite A1. reflexivity.
    + intros i Hi. destruct (Nat.leb_spec i k) as [e|e].
      * assert (i = k) by lia. subst i. exists n. destruct (Nat.leb_spec (S k) k); [lia|]. rewrite A0.
        refine (conj N0 (conj _ (conj N1 (conj N2 (conj _ _))))); [lia|rewrite app_length, Ln; lia|].
        intros j Hj. rewrite app_nth1 by lia. cbn [Nat.add]. rewrite (nth_indep _ _ (k, O, n)) by lia.
        rewrite (map_nth (fun j => (k, j, n)) (seq 0 n) O j). rewrite seq_nth by exact Hj. reflexivity.
      * destruct (A2 i ltac:(lia)) as (n' & B0 & B1 & B2 & B3 & B4 & B5). exists n'. destruct (Nat.leb_spec (S i) k); [lia|].
        refine (conj B0 (conj _ (conj B2 (conj B3 (conj _ _))))); [lia|rewrite app_length, Ln; lia|].
        intros j Hj. rewrite app_nth2 by lia. rewrite Ln. replace (n + a i + j - n)%nat with (a i + j)%nat by lia. apply B5, Hj.
Qed.
Definition cut_of (md : medium) (n_layers : nat) (cs : list (nat * nat * nat)) : cut :=
  {| c_layer := index cs; c_tau := ltau2 md cs; c_sun := btran2 md n_layers cs |}.
Lemma cuts_ok : forall mt md m cs, 0 < mt -> cells mt md 0 m = Answer cs -> cuts mt md m (cut_of md m cs) (length cs).
Proof.
  intros mt md m cs M H. destruct (cells_ok _ _ _ _ _ M H) as (a & A0 & A1 & A2). exists a. cbn [c_sun c_layer c_tau cut_of].
  refine (conj A0 (conj A1 (conj _ _))). { unfold btran2. rewrite Nat.ltb_irrefl. reflexivity. }
  intros k Hk. destruct (A2 k ltac:(lia)) as (n & B0 & B1 & B2 & B3 & B4 & B5). exists n.
  refine (conj B0 (conj B1 (conj B2 (conj B3 _)))). intros i Hi.
  assert (index cs (a k + i) = k /\ ltau2 md cs (a k + i) = s_ltau md k / INR n) as [I1 I2]. { unfold ltau2, index, cell. rewrite (B5 i Hi). split; reflexivity. }
  refine (conj I1 (conj I2 _)). unfold btran2. destruct (Nat.ltb_spec (a k + i) (length cs)); [|lia]. rewrite I1, I2. unfold cell. rewrite (B5 i Hi). cbn [fst snd].
  f_equal. f_equal. ring.
Qed.
Lemma cuts_layer : forall mt md m g N, cuts mt md m g N -> forall j, (j < N)%nat -> (c_layer g j < m)%nat /\ exists c, (0 < c)%nat /\ c_tau g j = s_ltau md (c_layer g j) / INR c /\ s_ltau md (c_layer g j) <= mt * INR c.
Proof.
  intros mt md m g N (a & A0 & A1 & _ & A2) j. subst N.
  assert (forall k, (k <= m)%nat -> (j < a k)%nat -> (c_layer g j < m)%nat /\ exists c, (0 < c)%nat /\ c_tau g j = s_ltau md (c_layer g j) / INR c /\ s_ltau md (c_layer g j) <= mt * INR c) as X.
  { intros k. induction k as [|k IH]; intros Hk Hj; [lia|]. destruct (A2 k ltac:(lia)) as (c & C0 & C1 & C2 & C3 & C4).
    destruct (Nat.lt_ge_cases j (a k)) as [L|L]; [apply IH; [lia|exact L]|].
    destruct (C4 (j - a k)%nat ltac:(lia)) as (D0 & D1 & _). replace (a k + (j - a k))%nat with j in * by lia. rewrite D0. split; [lia|]. exists c. split; [exact C0|]. split; [exact D1|exact C2]. }
  intros Hj. apply (X m); [lia|exact Hj].
Qed.

(** * One order *)
Section Order.
Variables (md : medium) (n_layers : nat) (cs : list (nat * nat * nat)) (vector : bool) (m_quad n_stokes : nat).
Notation n := (S m_quad * n_stokes)%nat.
Notation N := (length cs).
Notation g := (cut_of md n_layers cs).
Hypothesis In_range : forall j, (j < N)%nat -> (index cs j < n_layers)%nat.
Hypothesis Same : vector = true \/ scalar n n_layers md.
Lemma part_is : part md = fraction md / 2.
Proof using. clear. unfold part, fraction. destruct (s_zeroth md); lra. Qed.
Lemma climb_step : forall add start j q, (j < N)%nat ->
  climb md cs add start (N - j) q = T md cs j q * climb md cs add start (N - S j) q + add j q.
Proof using.
  clear. intros add start j q Hj. replace (N - j)%nat with (S (N - S j)) by lia. cbn [climb]. replace (N - S (N - S j))%nat with j by lia. reflexivity.
Qed.
Lemma first_lit : lit md n g N 1 nothing (s_top md) (s_bot md) (first md n_layers cs).
Proof using.
  clear. split.
  - intros q Hq. cbn [first up down]. rewrite Nat.sub_diag. cbn [climb descend]. split; reflexivity.
  - intros j q Hj Hq. cbn [first up down]. rewrite climb_step by exact Hj. cbn [descend]. unfold clear, source_up, source_down, nothing. cbn [up down cut_of c_layer c_tau c_sun].
    rewrite (total_ext _ _ (fun _ => 0 * 0)) by (intros; ring). rewrite total_scale, Rmult_0_l.
    rewrite (total_ext n (fun i => s_qw md i * (s_Pmp md (index cs j) q i * 0 + s_Pmm md (index cs j) q i * 0)) (fun _ => 0 * 0)) by (intros; ring). rewrite total_scale, Rmult_0_l.
    unfold beam_strength, E, T. set (F := s_F0 md / (4 * PI)). split; unfold Rdiv; ring_simplify; field.
Qed.
Lemma scatter : forall P Q x y j q s, (j < N)%nat ->
  mul m_quad n_stokes (scaled md cs P j) (ends x j) q + mul m_quad n_stokes (scaled md cs Q j) (ends y j) q =
  (s_omega md (index cs j) * (0 * (s_F0 md / (4 * PI)) * btran2 md n_layers cs j * s + fraction md * total n (fun i => s_qw md i * (P q i * x j i + Q q i * y j i))) +
   s_omega md (index cs j) * (0 * (s_F0 md / (4 * PI)) * btran2 md n_layers cs (S j) * s + fraction md * total n (fun i => s_qw md i * (P q i * x (S j) i + Q q i * y (S j) i)))) / 2.
Proof using.
  clear. intros P Q x y j q s Hj. unfold mul, ends, scaled. rewrite <- total_plus.
  rewrite (total_ext _ _ (fun i => (s_omega md (index cs j) * (fraction md / 2)) * (s_qw md i * (P q i * x j i + Q q i * y j i) + s_qw md i * (P q i * x (S j) i + Q q i * y (S j) i)))).
  2:{ intros i Hi. rewrite part_is. ring. }
  rewrite total_scale, total_plus. field. exact PI_neq0.
Qed.
Lemma next_lit : forall x, lit md n g N 0 x (s_top md) (mirrored md n N x) (next md cs vector m_quad n_stokes x).
Proof using In_range Same.
  intros x. split.
  - intros q Hq. cbn [next up down]. rewrite Nat.sub_diag. cbn [climb descend]. split; [reflexivity|]. unfold mirrored, mul. destruct (s_Rs md); reflexivity.
  - intros j q Hj Hq. cbn [next up down]. rewrite climb_step by exact Hj. cbn [descend]. unfold clear, source_up, source_down. cbn [cut_of c_layer c_tau c_sun].
    fold (T md cs j q). fold (E md cs j q).
    assert (mul m_quad n_stokes (r_m md cs vector j) (ends (down x) j) q = mul m_quad n_stokes (scaled md cs (s_Ppm md (index cs j)) j) (ends (down x) j) q) as R1.
    { unfold r_m, r_p. destruct Same as [->|Sc]; [reflexivity|]. destruct vector; [reflexivity|]. apply total_ext. intros i Hi. unfold scaled. destruct (Sc (index cs j) q i (In_range j Hj) Hq Hi) as [_ ->]. reflexivity. }
    assert (mul m_quad n_stokes (t_m md cs vector j) (ends (down x) j) q = mul m_quad n_stokes (scaled md cs (s_Pmm md (index cs j)) j) (ends (down x) j) q) as R2.
    { unfold t_m, t_p. destruct Same as [->|Sc]; [reflexivity|]. destruct vector; [reflexivity|]. apply total_ext. intros i Hi. unfold scaled. destruct (Sc (index cs j) q i (In_range j Hj) Hq Hi) as [-> _]. reflexivity. }
    rewrite R1, R2. unfold t_p, r_p. split.
    + rewrite (scatter _ _ _ _ j q (s_P0p md (index cs j) q) Hj). reflexivity.
    + rewrite (scatter _ _ _ _ j q (s_P0m md (index cs j) q) Hj). reflexivity.
Qed.

(** * The loop *)
Definition nth_order (k : nat) : field := Nat.iter k (next md cs vector m_quad n_stokes) (first md n_layers cs).
Lemma successive_ok : successive md n g N nth_order.
Proof using In_range Same. split; [apply first_lit|]. intros k. cbn [nth_order Nat.iter]. apply next_lit. Qed.
Lemma peak_lt : forall tol v m, peak n_stokes v m < tol <-> forall i, (i <= m)%nat -> v (i * n_stokes)%nat < tol.
Proof using.
  clear. intros tol v m. induction m as [|m IH]; cbn [peak].
  - split; [intros H i Hi; replace i with O by lia; exact H|intros H; apply (H O); lia].
  - destruct (Rlt_dec (peak n_stokes v m) (v (S m * n_stokes)%nat)) as [L|L]; split.
    + intros H i Hi. destruct (Nat.eq_dec i (S m)) as [->|]; [exact H|]. apply IH; [lra|lia].
    + intros H. apply H. lia.
    + intros H i Hi. destruct (Nat.eq_dec i (S m)) as [->|]; [lra|]. apply IH; [exact H|lia].
    + intros H. apply IH. intros i Hi. apply H. lia.
Qed.
Lemma greater_lt : forall x y t, greater x y < t <-> x < t /\ y < t.
Proof using. clear. intros x y t. unfold greater. destruct (Rlt_dec y x); split; intros; lra. Qed.
Lemma orders_ok : forall tol fuel k a top bottom,
  (match a with None => True | Some a => ~ a < tol end) ->
  (forall q, top q = up (summed_up nth_order (S k)) 0 q) -> (forall q, bottom q = down (summed_up nth_order (S k)) N q) ->
  exists K, (S k <= K <= S k + fuel)%nat /\
    (forall q, fst (orders md cs vector m_quad n_stokes tol fuel (nth_order k) a top bottom) q = up (summed_up nth_order K) 0 q) /\
    (forall q, snd (orders md cs vector m_quad n_stokes tol fuel (nth_order k) a top bottom) q = down (summed_up nth_order K) N q) /\
    (K = (S k + fuel)%nat \/ (S k < K)%nat /\ spent tol m_quad n_stokes N (nth_order (K - 1))) /\
    (forall j, (k < j < K - 1)%nat -> ~ spent tol m_quad n_stokes N (nth_order j)).
Proof using.
  clear. intros tol fuel. induction fuel as [|fuel IH]; intros k a top bottom A Tp Bt; cbn [orders].
  - exists (S k). split; [lia|]. split; [exact Tp|]. split; [exact Bt|]. split; [left; lia|]. intros j Hj. lia.
  - fold (nth_order (S k)). change (next md cs vector m_quad n_stokes (nth_order k)) with (nth_order (S k)).
    set (s := lesser _ _). 
    assert (s < tol <-> spent tol m_quad n_stokes N (nth_order (S k))) as Sp.
    { unfold s. transitivity (greater (peak n_stokes (up (nth_order (S k)) 0%nat) m_quad) (peak n_stokes (down (nth_order (S k)) N) m_quad) < tol).
      - unfold lesser. destruct a as [a|]; [|reflexivity]. destruct (Rlt_dec a _) as [L|L]; split; intros; lra.
      - rewrite greater_lt, !peak_lt. unfold spent. split; [intros [U D] i Hi; split; auto|intros H; split; intros i Hi; apply H, Hi]. }
    destruct (Rlt_dec s tol) as [L|L].
    + exists (S (S k)). split; [lia|]. cbn [fst snd]. split; [intros q; rewrite Tp; reflexivity|]. split; [intros q; rewrite Bt; reflexivity|].
      split; [right; split; [lia|]; replace (S (S k) - 1)%nat with (S k) by lia; apply Sp, L|]. intros j Hj. lia.
    + destruct (IH (S k) (Some s) (fun q => top q + up (nth_order (S k)) 0%nat q) (fun q => bottom q + down (nth_order (S k)) N q)) as (K & K0 & K1 & K2 & K3 & K4).
      * exact L.
      * intros q. rewrite Tp. reflexivity.
      * intros q. rewrite Bt. reflexivity.
      * exists K. split; [lia|]. split; [exact K1|]. split; [exact K2|]. split; [destruct K3 as [->|[? ?]]; [left; lia|right; split; [lia|assumption]]|].
        intros j Hj. destruct (Nat.eq_dec j (S k)) as [->|]; [rewrite <- Sp; exact L|apply K4; lia].
Qed.
Lemma summed_ok : forall tol max_os, exists K, (1 <= K <= Nat.max 1 max_os)%nat /\
    (forall q, fst (summed md n_layers cs vector m_quad n_stokes max_os tol) q = up (summed_up nth_order K) 0 q) /\
    (forall q, snd (summed md n_layers cs vector m_quad n_stokes max_os tol) q = down (summed_up nth_order K) N q) /\
    (K = Nat.max 1 max_os \/ (1 < K)%nat /\ spent tol m_quad n_stokes N (nth_order (K - 1))) /\
    (forall j, (0 < j < K - 1)%nat -> ~ spent tol m_quad n_stokes N (nth_order j)).
Proof using.
  clear. intros tol max_os. destruct (orders_ok tol (max_os - 1) 0 None (up (first md n_layers cs) 0%nat) (down (first md n_layers cs) N)) as (K & K0 & K1 & K2 & K3 & K4).
  - exact Logic.I.
  - intros q. cbn [summed_up plus up nothing]. change (nth_order 0) with (first md n_layers cs). ring.
  - intros q. cbn [summed_up plus down nothing]. change (nth_order 0) with (first md n_layers cs). ring.
  - exists K. split; [lia|]. split; [exact K1|]. split; [exact K2|]. split; [destruct K3 as [->|?]; [left; lia|right; assumption]|exact K4].
Qed.
End Order.

(** * Sums of orders *)
Section Sums.
Variables (md : medium) (n : nat) (g : cut) (N : nat).
Lemma source_up_lin : forall a b s t x y k j q,
  source_up md n g (a * s + b * t) {| up := fun j q => a * up x j q + b * up y j q; down := fun j q => a * down x j q + b * down y j q |} k j q =
  a * source_up md n g s x k j q + b * source_up md n g t y k j q.
Proof using.
  clear. intros a b s t x y k j q. unfold source_up. cbn [up down].
  rewrite (total_ext n (fun i => s_qw md i * (s_Ppp md k q i * (a * up x j i + b * up y j i) + s_Ppm md k q i * (a * down x j i + b * down y j i)))
    (fun i => a * (s_qw md i * (s_Ppp md k q i * up x j i + s_Ppm md k q i * down x j i)) + b * (s_qw md i * (s_Ppp md k q i * up y j i + s_Ppm md k q i * down y j i)))) by (intros; ring).
  rewrite total_plus, !total_scale. ring.
Qed.
Lemma source_down_lin : forall a b s t x y k j q,
  source_down md n g (a * s + b * t) {| up := fun j q => a * up x j q + b * up y j q; down := fun j q => a * down x j q + b * down y j q |} k j q =
  a * source_down md n g s x k j q + b * source_down md n g t y k j q.
Proof using.
  clear. intros a b s t x y k j q. unfold source_down. cbn [up down].
  rewrite (total_ext n (fun i => s_qw md i * (s_Pmp md k q i * (a * up x j i + b * up y j i) + s_Pmm md k q i * (a * down x j i + b * down y j i)))
    (fun i => a * (s_qw md i * (s_Pmp md k q i * up x j i + s_Pmm md k q i * down x j i)) + b * (s_qw md i * (s_Pmp md k q i * up y j i + s_Pmm md k q i * down y j i)))) by (intros; ring).
  rewrite total_plus, !total_scale. ring.
Qed.
Definition combined (a b : R) (x y : field) : field := {| up := fun j q => a * up x j q + b * up y j q; down := fun j q => a * down x j q + b * down y j q |}.
Lemma lit_lin : forall a b s t x y t1 t2 b1 b2 v w, lit md n g N s x t1 b1 v -> lit md n g N t y t2 b2 w ->
  lit md n g N (a * s + b * t) (combined a b x y) (fun q => a * t1 q + b * t2 q) (fun q => a * b1 q + b * b2 q) (combined a b v w).
Proof using.
  clear. intros a b s t x y t1 t2 b1 b2 v w [V0 V1] [W0 W1]. split.
  - intros q Hq. destruct (V0 q Hq) as [V2 V3]. destruct (W0 q Hq) as [W2 W3]. cbn [combined up down]. rewrite V2, V3, W2, W3. split; reflexivity.
  - intros j q Hj Hq. destruct (V1 j q Hj Hq) as [V2 V3]. destruct (W1 j q Hj Hq) as [W2 W3].
    assert (forall i r, up (combined a b v w) i r = a * up v i r + b * up w i r /\ down (combined a b v w) i r = a * down v i r + b * down w i r) as C by (intros; split; reflexivity).
    rewrite (proj1 (C j q)), (proj1 (C (S j) q)), (proj2 (C j q)), (proj2 (C (S j) q)), V2, V3, W2, W3. unfold combined. rewrite !source_up_lin, !source_down_lin. split; field.
Qed.
Lemma lit_ext : forall s s' x x' t t' b b' y y', s = s' -> (forall j q, up x j q = up x' j q /\ down x j q = down x' j q) -> (forall q, (q < n)%nat -> t q = t' q) -> (forall q, (q < n)%nat -> b q = b' q) ->
  (forall j q, up y j q = up y' j q /\ down y j q = down y' j q) -> lit md n g N s x t b y -> lit md n g N s' x' t' b' y'.
Proof using.
  clear. intros s s' x x' t t' b b' y y' <- X Tq Bq Y [L0 L1]. split.
  - intros q Hq. destruct (L0 q Hq) as [A B]. rewrite <- (Tq q Hq), <- (Bq q Hq), <- (proj2 (Y O q)), <- (proj1 (Y N q)). split; assumption.
  - intros j q Hj Hq. destruct (L1 j q Hj Hq) as [A B]. rewrite <- (proj1 (Y j q)), <- (proj1 (Y (S j) q)), <- (proj2 (Y j q)), <- (proj2 (Y (S j) q)), A, B.
    assert (forall k j q, source_up md n g s x k j q = source_up md n g s x' k j q) as S1.
    { intros k i r. unfold source_up. do 3 f_equal. apply total_ext. intros l Hl. rewrite (proj1 (X i l)), (proj2 (X i l)). reflexivity. }
    assert (forall k j q, source_down md n g s x k j q = source_down md n g s x' k j q) as S2.
    { intros k i r. unfold source_down. do 3 f_equal. apply total_ext. intros l Hl. rewrite (proj1 (X i l)), (proj2 (X i l)). reflexivity. }
    rewrite !S1, !S2. split; reflexivity.
Qed.
Lemma mirrored_lin : forall a b x y q, mirrored md n N (combined a b x y) q = a * mirrored md n N x q + b * mirrored md n N y q.
Proof using.
  clear. intros a b x y q. unfold mirrored. destruct (s_Rs md) as [r|]; [|ring]. cbn [combined down].
  rewrite (total_ext n _ (fun i => a * (r q i * down x N i) + b * (r q i * down y N i))) by (intros; ring). rewrite total_plus, !total_scale. reflexivity.
Qed.
Lemma sums_lit : forall x K, successive md n g N x ->
  lit md n g N 1 (summed_up x K) (fun q => INR (S K) * s_top md q) (fun q => s_bot md q + mirrored md n N (summed_up x K) q) (summed_up x (S K)).
Proof using.
  clear. intros x K [X0 X1]. induction K as [|K IH].
  - eapply lit_ext; [| | | | |exact X0]; [reflexivity|intros; split; reflexivity| | |].
    + intros q _. cbn [INR]. ring.
    + intros q _. unfold mirrored, summed_up, nothing. cbn [down]. destruct (s_Rs md) as [r|]; [|ring]. rewrite (total_ext n _ (fun _ => 0 * 0)) by (intros; ring). rewrite total_scale. ring.
    + intros j q. cbn [summed_up plus nothing up down]. split; ring.
  - eapply lit_ext; [| | | | |exact (lit_lin 1 1 1 0 _ _ _ _ _ _ _ _ IH (X1 K))].
    + ring.
    + intros j q. change (summed_up x (S K)) with (plus (summed_up x K) (x K)). cbn [combined plus up down]. split; ring.
    + intros q _. rewrite (S_INR (S K)). ring.
    + intros q _. transitivity (s_bot md q + (1 * mirrored md n N (summed_up x K) q + 1 * mirrored md n N (x K) q)); [ring|]. f_equal. rewrite <- mirrored_lin.
      unfold mirrored. destruct (s_Rs md) as [r|]; [|reflexivity]. apply total_ext. intros i _. change (summed_up x (S K)) with (plus (summed_up x K) (x K)). cbn [combined plus down]. ring.
    + intros j q. change (summed_up x (S (S K))) with (plus (summed_up x (S K)) (x (S K))). cbn [combined plus up down]. split; ring.
Qed.

Variables (rho : R).
Hypothesis Rho : 0 <= rho.
Hypothesis Fades : fades md n g N rho.
Hypothesis Qx : forall q, (q < n)%nat -> 0 < s_qx md q.
Hypothesis Tau : forall j, (j < N)%nat -> 0 <= c_tau g j.
Lemma clear_01 : forall j q, (j < N)%nat -> (q < n)%nat -> 0 <= clear md g j q <= 1.
Proof using Qx Tau.
  clear -Qx Tau. intros j q Hj Hq. unfold clear. split; [left; apply exp_pos|]. rewrite <- exp_0. 
  assert (- c_tau g j / s_qx md q <= 0) as L. { unfold Rdiv. rewrite <- Ropp_mult_distr_l. pose proof (Rmult_le_pos _ _ (Tau j Hj) (Rlt_le _ _ (Rinv_0_lt_compat _ (Qx q Hq)))). lra. }
  destruct (Rle_lt_or_eq_dec _ _ L) as [l|e]; [left; apply exp_increasing, l|rewrite e; right; reflexivity].
Qed.
Lemma weighted : forall (w a b : nat -> R) (x y : nat -> R) B, 0 <= B -> (forall i, (i < n)%nat -> Rabs (x i) <= B /\ Rabs (y i) <= B) ->
  Rabs (total n (fun i => w i * (a i * x i + b i * y i))) <= total n (fun i => Rabs (w i) * (Rabs (a i) + Rabs (b i))) * B.
Proof using.
  clear. intros w a b x y B HB H. eapply Rle_trans; [apply total_abs|]. rewrite <- total_scale_r. apply total_le. intros i Hi. destruct (H i Hi) as [X Y].
  rewrite Rabs_mult, Rmult_assoc. apply Rmult_le_compat_l; [apply Rabs_pos|]. eapply Rle_trans; [apply Rabs_triang|]. rewrite !Rabs_mult, Rmult_plus_distr_r.
  apply Rplus_le_compat; apply Rmult_le_compat_l; try apply Rabs_pos; assumption.
Qed.
Lemma bounded_step : forall c u v w B, 0 <= c <= 1 -> Rabs u <= B -> Rabs v <= B -> Rabs w <= B -> Rabs (c * u + (1 - c) * ((v + w) / 2)) <= B.
Proof using.
  clear. intros c u v w B C U V W. assert (forall z, Rabs z <= B -> - B <= z <= B) as X. { intros z Z. pose proof (Rle_abs z). pose proof (Rle_abs (- z)) as Y. rewrite Rabs_Ropp in Y. lra. }
  apply X in U, V, W. apply Rabs_le. split; nra.
Qed.
Lemma fraction_pos : 0 <= fraction md. Proof using. clear. unfold fraction. destruct (s_zeroth md); lra. Qed.
Lemma lit_bound : forall B x top bottom y, 0 <= B -> lit md n g N 0 x top bottom y ->
  (forall j q, (j <= N)%nat -> (q < n)%nat -> Rabs (up x j q) <= B /\ Rabs (down x j q) <= B) ->
  (forall q, (q < n)%nat -> Rabs (top q) <= rho * B /\ Rabs (bottom q) <= rho * B) ->
  forall j q, (j <= N)%nat -> (q < n)%nat -> Rabs (up y j q) <= rho * B /\ Rabs (down y j q) <= rho * B.
Proof using Fades Qx Tau.
  clear -Fades Qx Tau. intros B x top bottom y HB [L0 L1] X TB.
  assert (forall j i q, (j < N)%nat -> (i <= N)%nat -> (q < n)%nat -> Rabs (source_up md n g 0 x (c_layer g j) i q) <= rho * B /\ Rabs (source_down md n g 0 x (c_layer g j) i q) <= rho * B) as Src.
  { assert (forall f w s b, f * w * s * b = w * (f * (s * b))) as Ex by (intros; ring).
    intros j i q Hj Hi Hq. destruct Fades as [Fd _]. destruct (Fd j q Hj Hq) as [F1 F2]. unfold source_up, source_down. rewrite !Rmult_0_l, !Rplus_0_l. rewrite !Rabs_mult, (Rabs_pos_eq _ fraction_pos). split.
    - eapply Rle_trans; [|apply (Rmult_le_compat_r B); [exact HB|exact F1]]. rewrite Ex. apply Rmult_le_compat_l; [apply Rabs_pos|].
      apply Rmult_le_compat_l; [apply fraction_pos|]. apply weighted; [exact HB|]. intros k Hk. apply X; assumption.
    - eapply Rle_trans; [|apply (Rmult_le_compat_r B); [exact HB|exact F2]]. rewrite Ex. apply Rmult_le_compat_l; [apply Rabs_pos|].
      apply Rmult_le_compat_l; [apply fraction_pos|]. apply weighted; [exact HB|]. intros k Hk. apply X; assumption. }
  assert (forall c q, (c <= N)%nat -> (q < n)%nat -> Rabs (up y (N - c) q) <= rho * B) as U.
  { induction c as [|c IH]; intros q Hc Hq. { rewrite Nat.sub_0_r, (proj2 (L0 q Hq)). apply TB, Hq. }
    rewrite (proj1 (L1 (N - S c)%nat q ltac:(lia) Hq)). replace (S (N - S c)) with (N - c)%nat by lia.
    apply bounded_step; [apply clear_01; [lia|exact Hq]|apply IH; [lia|exact Hq]|apply Src; lia|apply Src; lia]. }
  assert (forall j q, (j <= N)%nat -> (q < n)%nat -> Rabs (down y j q) <= rho * B) as D.
  { induction j as [|j IH]; intros q Hj Hq. { rewrite (proj1 (L0 q Hq)). apply TB, Hq. }
    rewrite (proj2 (L1 j q ltac:(lia) Hq)). apply bounded_step; [apply clear_01; [lia|exact Hq]|apply IH; [lia|exact Hq]|apply Src; lia|apply Src; lia]. }
  intros j q Hj Hq. split; [|apply D; assumption]. replace j with (N - (N - j))%nat by lia. apply U; [lia|exact Hq].
Qed.
Lemma mirrored_bound : forall B x, 0 <= B -> (forall q, (q < n)%nat -> Rabs (down x N q) <= B) -> forall q, (q < n)%nat -> Rabs (mirrored md n N x q) <= rho * B.
Proof using Rho Fades.
  clear -Rho Fades. intros B x HB X q Hq. unfold mirrored. destruct Fades as [_ Fd]. destruct (s_Rs md) as [r|]; [|rewrite Rabs_R0; apply Rmult_le_pos; assumption].
  eapply Rle_trans; [apply total_abs|]. eapply Rle_trans; [|apply Rmult_le_compat_r; [exact HB|apply (Fd r q eq_refl Hq)]]. rewrite <- total_scale_r. apply total_le.
  intros i Hi. rewrite Rabs_mult. apply Rmult_le_compat_l; [apply Rabs_pos|apply X, Hi].
Qed.
Lemma remainder : forall x Y B, successive md n g N x -> (forall q, (q < n)%nat -> s_top md q = 0) -> whole md n g N Y -> 0 <= B -> within n N B Y nothing ->
  forall K, within n N (rho ^ K * B) Y (summed_up x K).
Proof using Rho Fades Qx Tau.
  intros x Y B Sx Top W HB B0 K. induction K as [|K IH].
  - cbn [pow]. rewrite Rmult_1_l. exact B0.
  - pose proof (lit_lin 1 (-1) _ _ _ _ _ _ _ _ _ _ W (sums_lit x K Sx)) as L. replace (1 * 1 + -1 * 1) with 0 in L by ring.
    intros j q Hj Hq. cbn [pow]. rewrite Rmult_assoc.
    assert (0 <= rho ^ K * B) as HB' by (apply Rmult_le_pos; [apply pow_le, Rho|exact HB]).
    assert (forall i r, (i <= N)%nat -> (r < n)%nat -> Rabs (up (combined 1 (-1) Y (summed_up x K)) i r) <= rho ^ K * B /\ Rabs (down (combined 1 (-1) Y (summed_up x K)) i r) <= rho ^ K * B) as X.
    { intros i r Hi Hr. cbn [combined up down]. destruct (IH i r Hi Hr) as [A1 A2]. split.
      - replace (1 * up Y i r + -1 * up (summed_up x K) i r) with (up Y i r - up (summed_up x K) i r) by ring. exact A1.
      - replace (1 * down Y i r + -1 * down (summed_up x K) i r) with (down Y i r - down (summed_up x K) i r) by ring. exact A2. }
    destruct (lit_bound _ _ _ _ _ HB' L X) with (j := j) (q := q) as [A1 A2]; [|exact Hj|exact Hq|].
    + intros r Hr. split.
      * rewrite (Top r Hr). replace (1 * 0 + -1 * (INR (S K) * 0)) with 0 by ring. rewrite Rabs_R0. apply Rmult_le_pos; assumption.
      * replace (1 * (s_bot md r + mirrored md n N Y r) + -1 * (s_bot md r + mirrored md n N (summed_up x K) r)) with (1 * mirrored md n N Y r + -1 * mirrored md n N (summed_up x K) r) by ring.
        rewrite <- mirrored_lin. apply mirrored_bound; [exact HB'| |exact Hr]. intros i Hi. apply X; [lia|exact Hi].
    + cbn [combined up down] in A1, A2. split.
      * replace (up Y j q - up (summed_up x (S K)) j q) with (1 * up Y j q + -1 * up (summed_up x (S K)) j q) by ring. exact A1.
      * replace (down Y j q - down (summed_up x (S K)) j q) with (1 * down Y j q + -1 * down (summed_up x (S K)) j q) by ring. exact A2.
Qed.
End Sums.
