(** C50: the Fourier components of the phase function. *)
From Coq Require Import Reals ZArith Arith Bool Lia Lra Factorial.
From Verif Require Import DeltaMSpec DeltaMProofs AddingModel AddingMat AddingDeriv EigSpec ScatSpec ScatModel LegendreProofs ScatProofs.
Open Scope R_scope.
Local Notation array := ScatModel.array.

(** [y] is what the array of the functions of one order holds for the angle [mu], whatever it held before *)
Definition holds (m n_coef2 : nat) (mu : R) (y : array) : Prop := exists y0, get_Y m n_coef2 mu y0 = Some y.
Lemma holds_val : forall m n2 mu y k, holds m n2 mu y -> (m < n2)%nat -> (k < n2)%nat -> y k = Yv m mu k.
Proof.
  intros m n2 mu y k [y0 E] Hm Hk. destruct (assoc_ok m n2 n2 mu y0 Hm (le_n _)) as [y' [E' A]]. unfold get_Y in E. rewrite E' in E. injection E as ->. apply A, Hk.
Qed.

(** Every order below the number of coefficients is computed inside the arrays; a handle has no other orders, unless it was created for no
    coefficients. *)
Theorem C50_inside : forall n_coef n_quad na i_four mu y0, (0 < n_coef)%nat -> (0 < n_quad)%nat ->
  (i_four < fst (orders n_coef n_quad na))%nat -> exists y, get_Y i_four (snd (orders n_coef n_quad na)) mu y0 = Some y.
Proof.
  intros n_coef n_quad na i_four mu y0 Hc Hq Hi.
  assert (fst (orders n_coef n_quad na) <= snd (orders n_coef n_quad na))%nat as Le.
  { unfold orders. destruct (Nat.eqb_spec n_coef 0); [lia|]. destruct (Nat.leb_spec n_coef (2 * n_quad)); destruct na; cbn [fst snd]; lia. }
  destruct (assoc_ok i_four _ _ mu y0 (Nat.lt_le_trans _ _ _ Hi Le) (le_n _)) as [y [E _]]. exists y. exact E.
Qed.
Example C50_inside_case : (1 < fst (orders 5 3 false))%nat /\ orders 5 3 false = (5, 5)%nat /\ orders 9 3 true = (1, 6)%nat.
Proof. cbn. repeat split; lia. Qed.
(** ... a number which creation accepts although the message it has for a negative one asks for more than zero. *)
Theorem C50_no_coefficients_refuted : forall n_quad na mu y0, (0 < fst (orders 0 n_quad na))%nat /\ get_Y 0 (snd (orders 0 n_quad na)) mu y0 = None.
Proof. intros n_quad na mu y0. unfold orders. cbn [Nat.eqb]. split; [destruct na; cbn; lia|]. apply assoc_out. cbn. lia. Qed.

(** Between the streams: the components of all orders, summed over the azimuth, are the phase function at the angle between the two
    directions, for streams of the same hemisphere and of opposite ones. *)
Theorem C50_streams : forall n_coef n_coef2 chi mu1 mu2 Y1 Y2 i j phi phi', (n_coef <= n_coef2)%nat ->
  -1 <= mu1 i <= 1 -> -1 <= mu2 j <= 1 ->
  (forall m, (m < n_coef)%nat -> holds m n_coef2 (mu1 i) (Y1 m i) /\ holds m n_coef2 (mu2 j) (Y2 m j)) ->
  let component m := build_phase_mats m n_coef (Y1 m) (Y2 m) chi in
  total n_coef (fun m => fst (component m) i j * cos (INR m * radians (phi - phi'))) =
    phase n_coef chi (dot (direction (mu1 i) (radians phi)) (direction (mu2 j) (radians phi'))) /\
  total n_coef (fun m => snd (component m) i j * cos (INR m * radians (phi - phi'))) =
    phase n_coef chi (dot (direction (- mu1 i) (radians phi)) (direction (mu2 j) (radians phi'))).
Proof.
  intros n n2 chi mu1 mu2 Y1 Y2 i j phi phi' Le H1 H2 HY component.
  assert (radians phi - radians phi' = radians (phi - phi')) as Er by (unfold radians; ring).
  assert (forall m k, (m < n)%nat -> (k < n)%nat -> Y1 m i k = Yv m (mu1 i) k /\ Y2 m j k = Yv m (mu2 j) k) as V.
  { intros m k Hm Hk. destruct (HY m Hm) as [A B]. split; apply (holds_val m n2); (assumption || lia). }
  split.
  - rewrite direction_dot, Er. rewrite <- components_sum by assumption. apply total_ext. intros m Hm. f_equal.
    apply (entry_pp m n (mu1 i) (mu2 j) (Y1 m i) (Y2 m j) chi); intros k Hk; apply (V m k Hm Hk).
  - rewrite direction_dot, Er. rewrite <- components_sum by lra. apply total_ext. intros m Hm. f_equal.
    rewrite <- (component_opp n chi m (- mu1 i) (mu2 j)), Ropp_involutive.
    apply (entry_mp m n (mu1 i) (mu2 j) (Y1 m i) (Y2 m j) chi); intros k Hk; apply (V m k Hm Hk).
Qed.
Example C50_streams_case : forall chi phi phi', exists Y1 Y2, let component m := build_phase_mats m 3 (Y1 m) (Y2 m) chi in
  total 3 (fun m => fst (component m) 0%nat 1%nat * cos (INR m * radians (phi - phi'))) =
    phase 3 chi (dot (direction (1 / 2) (radians phi)) (direction (1 / 3) (radians phi'))).
Proof.
  intros chi phi phi'.
  assert (forall mu, exists Y : nat -> array, forall m, (m < 3)%nat -> holds m 4 mu (Y m)) as G.
  { intro mu. exists (fun m => match get_Y m 4 mu (fun _ => 0) with Some y => y | None => fun _ => 0 end). intros m Hm. exists (fun _ => 0).
    destruct (assoc_ok m 4 4 mu (fun _ => 0) ltac:(lia) (le_n _)) as [y [E _]]. unfold get_Y. rewrite E. reflexivity. }
  destruct (G (1 / 2)) as [Ya HYa]. destruct (G (1 / 3)) as [Yb HYb]. exists (fun m _ => Ya m), (fun m _ => Yb m).
  apply (C50_streams 3 4 chi (fun _ => 1 / 2) (fun _ => 1 / 3) (fun m _ => Ya m) (fun m _ => Yb m) 0 1 phi phi' ltac:(lia)); try lra.
  intros m Hm. split; [apply HYa|apply HYb]; exact Hm.
Qed.

(** From the beam of the sun, which goes down: the same, and the phase function that the single scattering solver evaluates is this one. *)
Theorem C50_sun : forall n_coef n_coef2 len chi mu mu_0 Y1 Y0 i phi phi_0, (n_coef <= n_coef2)%nat -> (0 < len)%nat -> (n_coef <= len)%nat ->
  -1 <= mu i <= 1 -> -1 <= mu_0 <= 1 ->
  (forall m, (m < n_coef)%nat -> holds m n_coef2 (mu i) (Y1 m i) /\ holds m n_coef2 (- mu_0) (Y0 m)) ->
  let component m := phase_vecs_get m n_coef (Y1 m) (Y0 m) chi in
  let same := phase n_coef chi (dot (direction (mu i) (radians phi)) (direction mu_0 (radians phi_0))) in
  let opposite := phase n_coef chi (dot (direction (mu i) (radians phi)) (direction (- mu_0) (radians phi_0))) in
  total n_coef (fun m => fst (component m) i * cos (INR m * radians (phi - phi_0))) = same /\
  total n_coef (fun m => snd (component m) i * cos (INR m * radians (phi - phi_0))) = opposite /\
  phase_func_get len n_coef chi mu_0 phi_0 (mu i) phi = Some same /\
  phase_func_get len n_coef chi (- mu_0) phi_0 (mu i) phi = Some opposite.
Proof.
  intros n n2 len chi mu mu_0 Y1 Y0 i phi phi_0 Le Pos Ll H1 H0 HY component same opposite.
  assert (radians phi - radians phi_0 = radians (phi - phi_0)) as Er by (unfold radians; ring).
  assert (forall m k, (m < n)%nat -> (k < n)%nat -> Y1 m i k = Yv m (mu i) k /\ Y0 m k = Yv m (- mu_0) k) as V.
  { intros m k Hm Hk. destruct (HY m Hm) as [A B]. split; apply (holds_val m n2); (assumption || lia). }
  assert (forall c, phase_func_get len n chi c phi_0 (mu i) phi = Some (phase n chi (dot (direction (mu i) (radians phi)) (direction c (radians phi_0))))) as G.
  { intro c. unfold phase_func_get. destruct (leg_poly_ok len n (scat_angle c phi_0 (mu i) phi) (fun _ => 0) Pos Ll) as [p [E A]]. rewrite E. f_equal.
    rewrite phase_func_sum. unfold phase. apply total_ext. intros l Hl. rewrite A by exact Hl. rewrite direction_dot, Er. unfold scat_angle, radians, D2R. ring. }
  refine (conj _ (conj _ (conj _ _))).
  - unfold same. rewrite direction_dot, Er. rewrite <- components_sum by assumption. apply total_ext. intros m Hm. f_equal.
    pose proof (entry_mp m n (- mu_0) (mu i) (Y0 m) (Y1 m i) chi ltac:(intros k Hk; apply (V m k Hm Hk)) ltac:(intros k Hk; apply (V m k Hm Hk))) as E.
    unfold component, phase_vecs_get, build_phase_vecs. cbn [fst snd]. rewrite E. rewrite component_opp. apply component_sym.
  - unfold opposite. rewrite direction_dot, Er. rewrite <- components_sum by lra. apply total_ext. intros m Hm. f_equal.
    pose proof (entry_pp m n (- mu_0) (mu i) (Y0 m) (Y1 m i) chi ltac:(intros k Hk; apply (V m k Hm Hk)) ltac:(intros k Hk; apply (V m k Hm Hk))) as E.
    unfold component, phase_vecs_get, build_phase_vecs. cbn [fst snd]. rewrite E. apply component_sym.
  - apply G.
  - apply G.
Qed.

(** Reciprocity: what goes from stream j to stream i goes from i to j. *)
Theorem C50_reciprocal : forall m n_coef n_coef2 chi mu Y i j, (m < n_coef2)%nat -> (n_coef <= n_coef2)%nat -> holds m n_coef2 (mu i) (Y i) -> holds m n_coef2 (mu j) (Y j) ->
  fst (build_phase_mats m n_coef Y Y chi) i j = fst (build_phase_mats m n_coef Y Y chi) j i /\
  snd (build_phase_mats m n_coef Y Y chi) i j = snd (build_phase_mats m n_coef Y Y chi) j i.
Proof.
  intros m n n2 chi mu Y i j Hm Le Hi Hj.
  assert (forall k, (k < n)%nat -> Y i k = Yv m (mu i) k) as Vi. { intros k Hk. apply (holds_val m n2); (assumption || lia). }
  assert (forall k, (k < n)%nat -> Y j k = Yv m (mu j) k) as Vj. { intros k Hk. apply (holds_val m n2); (assumption || lia). }
  unfold build_phase_mats. cbn [fst snd]. split.
  - rewrite (entry_pp m n (mu i) (mu j)), (entry_pp m n (mu j) (mu i)) by assumption. apply component_sym.
  - rewrite (entry_mp m n (mu i) (mu j)), (entry_mp m n (mu j) (mu i)) by assumption.
    rewrite component_sym, <- component_opp, Ropp_involutive. reflexivity.
Qed.

(** The derivatives: the same routine, given the derivatives of the coefficients, returns the derivatives. *)
Lemma total_dl : forall n (f : nat -> R -> R) (f' : nat -> R) t, (forall k, (k < n)%nat -> derivable_pt_lim (f k) t (f' k)) ->
  derivable_pt_lim (fun s => total n (fun k => f k s)) t (total n f').
Proof.
  induction n as [|n IH]; intros f f' t D; cbn [total]; [apply derivable_pt_lim_const|].
  apply (derivable_pt_lim_plus (fun s => total n (fun k => f k s)) (f n)); [apply IH; auto|apply D; lia].
Qed.
Lemma alternate_dl : forall i n (f : R -> array) (f' : array) t, (forall k, (k < n)%nat -> derivable_pt_lim (fun s => f s k) t (f' k)) ->
  derivable_pt_lim (fun s => alternate i n (f s)) t (alternate i n f').
Proof.
  intros i n f f' t D. rewrite alternate_sum. apply (derivable_pt_lim_ext (fun s => total n (fun k => if hits i k then f s k else 0))).
  { intro s. symmetry. apply alternate_sum. }
  apply (total_dl n (fun k s => if hits i k then f s k else 0)). intros k Hk. destruct (hits i k); [apply D, Hk|apply derivable_pt_lim_const].
Qed.
Theorem C50_derivatives : forall m n_coef Y1 Y2 y (chi : R -> array) (chi_l : array) t i j,
  (forall k, (k < n_coef)%nat -> derivable_pt_lim (fun s => chi s k) t (chi_l k)) ->
  derivable_pt_lim (fun s => fst (build_phase_mats m n_coef Y1 Y2 (chi s)) i j) t (fst (build_phase_mats m n_coef Y1 Y2 chi_l) i j) /\
  derivable_pt_lim (fun s => snd (build_phase_mats m n_coef Y1 Y2 (chi s)) i j) t (snd (build_phase_mats m n_coef Y1 Y2 chi_l) i j) /\
  derivable_pt_lim (fun s => fst (phase_vecs_get m n_coef Y1 y (chi s)) i) t (fst (phase_vecs_get m n_coef Y1 y chi_l) i) /\
  derivable_pt_lim (fun s => snd (phase_vecs_get m n_coef Y1 y (chi s)) i) t (snd (phase_vecs_get m n_coef Y1 y chi_l) i) /\
  derivable_pt_lim (fun s => phase_func n_coef y (chi s)) t (phase_func n_coef y chi_l).
Proof.
  intros m n Y1 Y2 y chi chi_l t i j D.
  assert (forall c a (v : R), derivable_pt_lim a t v -> derivable_pt_lim (fun s => a s * c) t (v * c)) as Mul.
  { intros c a v H. replace (v * c) with (v * c + a t * 0) by ring.
    apply (derivable_pt_lim_mult a (fun _ => c)); [exact H|apply derivable_pt_lim_const]. }
  assert (forall p (a b : array), derivable_pt_lim (fun s => alternate p n (fun k => chi s k * a k * b k)) t (alternate p n (fun k => chi_l k * a k * b k))) as Al.
  { intros p a b. apply (alternate_dl p n (fun s k => chi s k * a k * b k)). intros k Hk.
    apply (Mul (b k) (fun s => chi s k * a k)), (Mul (a k) (fun s => chi s k)), D, Hk. }
  refine (conj _ (conj _ (conj _ (conj _ _)))).
  - apply (Mul _ (fun s => alternate m n (fun k => chi s k * Y1 i k * Y2 j k) + alternate (m + 1) n (fun k => chi s k * Y1 i k * Y2 j k))).
    apply (derivable_pt_lim_plus _ _ _ _ _ (Al m (Y1 i) (Y2 j)) (Al (m + 1)%nat (Y1 i) (Y2 j))).
  - apply (Mul _ (fun s => alternate m n (fun k => chi s k * Y1 i k * Y2 j k) - alternate (m + 1) n (fun k => chi s k * Y1 i k * Y2 j k))).
    apply (derivable_pt_lim_minus _ _ _ _ _ (Al m (Y1 i) (Y2 j)) (Al (m + 1)%nat (Y1 i) (Y2 j))).
  - apply (Mul _ (fun s => alternate m n (fun k => chi s k * y k * Y1 i k) - alternate (m + 1) n (fun k => chi s k * y k * Y1 i k))).
    apply (derivable_pt_lim_minus _ _ _ _ _ (Al m y (Y1 i)) (Al (m + 1)%nat y (Y1 i))).
  - apply (Mul _ (fun s => alternate m n (fun k => chi s k * y k * Y1 i k) + alternate (m + 1) n (fun k => chi s k * y k * Y1 i k))).
    apply (derivable_pt_lim_plus _ _ _ _ _ (Al m y (Y1 i)) (Al (m + 1)%nat y (Y1 i))).
  - rewrite phase_func_sum. apply (derivable_pt_lim_ext (fun s => total n (fun l => y l * chi s l))). { intro s. symmetry. apply phase_func_sum. }
    apply (total_dl n (fun l s => y l * chi s l)). intros k Hk. apply derivable_pt_lim_scal, D, Hk.
Qed.
Example C50_derivatives_case : forall k, (k < 3)%nat -> derivable_pt_lim (fun s => s) 1 1 /\ derivable_pt_lim (fun _ : R => 7) 1 0.
Proof. intros k _. split; [apply derivable_pt_lim_id|apply derivable_pt_lim_const]. Qed.

(** Reverse mode: what is added to the adjoints of the coefficients, weighed by a change of the coefficients, is the change of the
    components weighed by their adjoints; other entries stay. *)
Lemma weave : forall m n e Pa Qa (a : array), 
  Pa * ((alternate m n a + alternate (m + 1) n a) * e) + Qa * ((alternate m n a - alternate (m + 1) n a) * e) =
  total n (fun k => (if hits m k then (Pa * e + Qa * e) else 0) * a k + (if hits (m + 1) k then (Pa * e - Qa * e) else 0) * a k).
Proof.
  intros m n e Pa Qa a. rewrite !alternate_sum, total_plus.
  replace (total n (fun k => (if hits m k then Pa * e + Qa * e else 0) * a k)) with ((Pa * e + Qa * e) * total n (fun k => if hits m k then a k else 0)).
  2:{ rewrite <- total_scale. apply total_ext. intros k _. destruct (hits m k); ring. }
  replace (total n (fun k => (if hits (m + 1) k then Pa * e - Qa * e else 0) * a k)) with ((Pa * e - Qa * e) * total n (fun k => if hits (m + 1) k then a k else 0)).
  2:{ rewrite <- total_scale. apply total_ext. intros k _. destruct (hits (m + 1) k); ring. }
  ring.
Qed.
Lemma change_a : forall m n g h ca k, (k < n)%nat ->
  alternate_a (m + 1) n h (alternate_a m n g ca) k - ca k = (if hits m k then g k else 0) + (if hits (m + 1) k then h k else 0).
Proof.
  intros m n g h ca k Hk. rewrite !alternate_a_val. destruct (Nat.ltb_spec k n); [|lia]. cbn [andb]. destruct (hits (m + 1) k), (hits m k); ring.
Qed.
Theorem C50_adjoint_streams : forall m n_coef n1 n2 Y1 Y2 ca Pa Qa (chi_l : array), let ca' := build_phase_mats_a m n_coef n1 n2 Y1 Y2 ca Pa Qa in
  total n_coef (fun k => chi_l k * (ca' k - ca k)) =
    total n1 (fun i => total n2 (fun j => Pa i j * fst (build_phase_mats m n_coef Y1 Y2 chi_l) i j + Qa i j * snd (build_phase_mats m n_coef Y1 Y2 chi_l) i j)) /\
  forall k, (n_coef <= k)%nat -> ca' k = ca k.
Proof.
  intros m n n1 n2 Y1 Y2 ca Pa Qa chi_l ca'. unfold ca', build_phase_mats_a, build_phase_mats. cbv zeta. cbn [fst snd]. rewrite eps_code. split.
  2:{ intros k Hk. rewrite !alternate_a_val. destruct (Nat.ltb_spec k n); [lia|reflexivity]. }
  transitivity (total n1 (fun i => total n2 (fun j => total n (fun k =>
    (if hits m k then (Pa i j * eps m + Qa i j * eps m) else 0) * (chi_l k * Y1 i k * Y2 j k) + (if hits (m + 1) k then (Pa i j * eps m - Qa i j * eps m) else 0) * (chi_l k * Y1 i k * Y2 j k))))).
  2:{ apply total_ext. intros i _. apply total_ext. intros j _. symmetry. apply weave. }
  transitivity (total n (fun k => total n1 (fun i => total n2 (fun j =>
    (if hits m k then (Pa i j * eps m + Qa i j * eps m) else 0) * (chi_l k * Y1 i k * Y2 j k) + (if hits (m + 1) k then (Pa i j * eps m - Qa i j * eps m) else 0) * (chi_l k * Y1 i k * Y2 j k))))).
  2:{ rewrite total_swap. apply total_ext. intros i _. apply total_swap. }
  apply total_ext. intros k Hk. rewrite change_a by exact Hk. rewrite !sum_total.
  transitivity (total n1 (fun i => chi_l k * ((if hits m k then total n2 (fun j => (Pa i j * eps m + Qa i j * eps m) * Y2 j k) * Y1 i k else 0) +
    (if hits (m + 1) k then total n2 (fun j => (Pa i j * eps m - Qa i j * eps m) * Y2 j k) * Y1 i k else 0)))).
  { rewrite total_scale, total_plus. f_equal. f_equal.
    - destruct (hits m k); [|symmetry; apply total_zero; reflexivity]. apply total_ext. intros i _. rewrite sum_total. reflexivity.
    - destruct (hits (m + 1) k); [|symmetry; apply total_zero; reflexivity]. apply total_ext. intros i _. rewrite sum_total. reflexivity. }
  apply total_ext. intros i _. rewrite total_plus, Rmult_plus_distr_l. f_equal.
  - destruct (hits m k); [|rewrite Rmult_0_r; symmetry; apply total_zero; intros; ring]. rewrite <- total_scale_r, <- total_scale. apply total_ext. intros j _. ring.
  - destruct (hits (m + 1) k); [|rewrite Rmult_0_r; symmetry; apply total_zero; intros; ring]. rewrite <- total_scale_r, <- total_scale. apply total_ext. intros j _. ring.
Qed.
(** [phase_vecs_get] in reverse hands the adjoints over in the order in which it handed over the results. *)
Theorem C50_adjoint_sun : forall m n_coef n1 Y1 y ca Pa Qa (chi_l : array), let ca' := build_phase_vecs_a m n_coef n1 Y1 y ca Qa Pa in
  total n_coef (fun k => chi_l k * (ca' k - ca k)) =
    total n1 (fun i => Pa i * fst (phase_vecs_get m n_coef Y1 y chi_l) i + Qa i * snd (phase_vecs_get m n_coef Y1 y chi_l) i) /\
  forall k, (n_coef <= k)%nat -> ca' k = ca k.
Proof.
  intros m n n1 Y1 y ca Pa Qa chi_l ca'. unfold ca', build_phase_vecs_a, phase_vecs_get, build_phase_vecs. cbv zeta. cbn [fst snd]. rewrite eps_code. split.
  2:{ intros k Hk. rewrite !alternate_a_val. destruct (Nat.ltb_spec k n); [lia|reflexivity]. }
  transitivity (total n1 (fun i => total n (fun k =>
    (if hits m k then (Qa i * eps m + Pa i * eps m) else 0) * (chi_l k * y k * Y1 i k) + (if hits (m + 1) k then (Qa i * eps m - Pa i * eps m) else 0) * (chi_l k * y k * Y1 i k)))).
  2:{ apply total_ext. intros i _. symmetry. etransitivity; [|apply (weave m n (eps m) (Qa i) (Pa i) (fun k => chi_l k * y k * Y1 i k))]. ring. }
  rewrite total_swap. apply total_ext. intros k Hk. rewrite change_a by exact Hk. rewrite !sum_total. rewrite total_plus, Rmult_plus_distr_l. f_equal.
  - destruct (hits m k); [|rewrite Rmult_0_r; symmetry; apply total_zero; intros; ring]. rewrite <- total_scale_r, <- total_scale. apply total_ext. intros i _. ring.
  - destruct (hits (m + 1) k); [|rewrite Rmult_0_r; symmetry; apply total_zero; intros; ring]. rewrite <- total_scale_r, <- total_scale. apply total_ext. intros i _. ring.
Qed.
Theorem C50_adjoint_single : forall n_coef p ca Pa (chi_l : array), let ca' := phase_func_a n_coef p ca Pa in
  total n_coef (fun k => chi_l k * (ca' k - ca k)) = Pa * phase_func n_coef p chi_l /\ forall k, (n_coef <= k)%nat -> ca' k = ca k.
Proof.
  intros n p ca Pa chi_l ca'. unfold ca', phase_func_a. split.
  - rewrite phase_func_sum, <- total_scale. apply total_ext. intros k Hk. destruct (Nat.ltb_spec k n); [ring|lia].
  - intros k Hk. destruct (Nat.ltb_spec k n); [lia|reflexivity].
Qed.

(** The average over all directions: of the light of a stream the matrices of order 0 redistribute the share given by the first
    coefficient, all of it for a coefficient of 1. *)
Lemma holds_legendre : forall n2 mu y k, holds 0 n2 mu y -> (k < n2)%nat -> y k = legendre k mu.
Proof.
  intros n2 mu y k H Hk. rewrite (holds_val 0 n2 mu y k H) by lia. unfold Yv. rewrite weight_0, sqrt_1, P_legendre. cbn [pow]. ring.
Qed.
Theorem C50_conserves : forall n n_coef n_coef2 chi mu w Y1 Y2 i mu_i, (0 < n_coef)%nat -> (n_coef <= n_coef2)%nat -> integrates n n_coef mu w ->
  holds 0 n_coef2 mu_i (Y1 i) -> (forall j, (j < n)%nat -> holds 0 n_coef2 (mu j) (Y2 j)) ->
  total n (fun j => w j * (fst (build_phase_mats 0 n_coef Y1 Y2 chi) i j + snd (build_phase_mats 0 n_coef Y1 Y2 chi) i j)) = 2 * chi 0%nat.
Proof.
  intros n nc n2 chi mu w Y1 Y2 i mu_i Pos Le Int H1 H2. unfold build_phase_mats. cbv zeta. cbn [fst snd].
  transitivity (total n (fun j => total nc (fun k => 2 * (if hits 0 k then chi k * legendre k mu_i * (w j * legendre k (mu j)) else 0)))).
  - apply total_ext. intros j Hj. rewrite alternate_sum. change (0 =? 0)%nat with true. cbv iota.
    set (A := total nc _). set (B := alternate (0 + 1) nc _).
    replace (w j * ((A + B) * (2 - 1) + (A - B) * (2 - 1))) with (2 * w j * A) by ring. unfold A. rewrite <- total_scale. apply total_ext. intros k Hk.
    rewrite (holds_legendre n2 mu_i (Y1 i) k H1), (holds_legendre n2 (mu j) (Y2 j) k (H2 j Hj)) by lia. destruct (hits 0 k); ring.
  - rewrite total_swap. rewrite (total_one nc 0); [|exact Pos|].
    2:{ intros k Hk Nk. destruct (hits 0 k) eqn:E; [|apply total_zero; intros; ring]. rewrite total_scale.
        unfold hits in E. cbn [Nat.leb andb] in E. rewrite Nat.sub_0_r in E. rewrite total_scale, (Int k Hk E).
        destruct (Nat.eqb_spec k 0); [contradiction|ring]. }
    change (hits 0 0) with true. cbv iota. rewrite !total_scale, (Int 0%nat Pos eq_refl). cbn. ring.
Qed.
(** With it the requirements that the theorems about the solvers make of the scattering are met in order 0 by an absorbing medium with a
    phase function that is not negative (and normalized: the first coefficient is 1). *)
Theorem C50_scatters : forall n n_coef n_coef2 chi mu w Y omega, (0 < n_coef)%nat -> (n_coef <= n_coef2)%nat -> integrates n n_coef mu w ->
  (forall i, (i < n)%nat -> 0 < mu i /\ 0 <= w i /\ holds 0 n_coef2 (mu i) (Y i)) ->
  (forall i j, (i < n)%nat -> (j < n)%nat -> 0 <= fst (build_phase_mats 0 n_coef Y Y chi) i j /\ 0 <= snd (build_phase_mats 0 n_coef Y Y chi) i j) ->
  chi 0%nat = 1 -> 0 <= omega < 1 ->
  scatters n mu w ((1 + 1) / 4 * omega) (fst (build_phase_mats 0 n_coef Y Y chi)) (snd (build_phase_mats 0 n_coef Y Y chi)).
Proof.
  intros n nc n2 chi mu w Y omega Pos Le Int H Nn One Om. refine (conj _ (conj _ _)).
  - intros i Hi. destruct (H i Hi) as [A [B _]]. split; assumption.
  - intros i j Hi Hj. apply (C50_reciprocal 0 nc n2 chi mu Y i j); try lia; [apply (H i Hi)|apply (H j Hj)].
  - intros i Hi _. rewrite (total_ext n _ (fun j => w j * (fst (build_phase_mats 0 nc Y Y chi) i j + snd (build_phase_mats 0 nc Y Y chi) i j))).
    + rewrite (C50_conserves n nc n2 chi mu w Y Y i (mu i) Pos Le Int) by (intros; apply H; assumption). rewrite One, Rabs_right by lra. lra.
    + intros j Hj. destruct (Nn i j Hi Hj) as [A B]. rewrite !Rabs_right by lra. reflexivity.
Qed.
(** One stream at the cosine 1 / sqrt 3 with weight 1 integrates three coefficients. *)
Example C50_conserves_case : integrates 1 3 (fun _ => / sqrt 3) (fun _ => 1) /\ -1 <= / sqrt 3 <= 1.
Proof.
  assert (1 < sqrt 3) as S3. { rewrite <- sqrt_1 at 1. apply sqrt_lt_1; lra. } split.
  - intros [|[|[|l]]] Hl E; [| discriminate E | |lia]; cbn [total Nat.eqb legendre INR]; [ring|].
    assert (/ sqrt 3 * / sqrt 3 = 1 / 3) as Q. { rewrite <- Rinv_mult, sqrt_sqrt by lra. field. }
    transitivity ((3 * (/ sqrt 3 * / sqrt 3) - 1) / 2); [field; lra|]. rewrite Q. field.
  - split; [pose proof (Rinv_0_lt_compat (sqrt 3)); lra|]. rewrite <- Rinv_1. apply Rinv_le_contravar; lra.
Qed.

(** The closed forms of the solvers with four and six streams are these functions up to the sign, which drops out of the products. *)
Lemma by_root : forall a b N, 0 < N -> a / sqrt N * (b / sqrt N) = a * b / N.
Proof. intros a b N H. rewrite <- (sqrt_sqrt N) at 3 by lra. field. apply Rgt_not_eq, sqrt_lt_R0, H. Qed.
Lemma calc_T : forall m k x y, (m <= k)%nat -> (k <= 5)%nat -> -1 <= x <= 1 -> -1 <= y <= 1 -> exists u v, calc_Y_x m x k = Some u /\ calc_Y_x m y k = Some v /\
  u * v = T (sqrt (1 - x * x) * sqrt (1 - y * y)) x y m k.
Proof.
  intros m k x y Hm Hk Hx Hy.
  pose proof (sqrt_sqrt (1 - x * x) ltac:(nra)) as Sx. pose proof (sqrt_sqrt (1 - y * y) ltac:(nra)) as Sy.
  assert ((sqrt (1 - x * x) * sqrt (1 - y * y)) ^ 2 = (1 - x * x) * (1 - y * y)) as S2.
  { transitivity ((sqrt (1 - x * x) * sqrt (1 - x * x)) * (sqrt (1 - y * y) * sqrt (1 - y * y))); [ring|]. rewrite Sx, Sy. reflexivity. }
  unfold T, calc_Y_x.
  destruct m as [|[|[|[|[|[|m]]]]]]; destruct k as [|[|[|[|[|[|k]]]]]]; try lia; try (exfalso; lia);
    (eexists; eexists; split; [reflexivity|split; [reflexivity|]]); try (rewrite by_root by lra);
    match goal with |- context [P ?a x (Z.of_nat ?c)] => let b := eval compute in (c - a)%nat in
      rewrite (P_at a x b : P a x (Z.of_nat c) = _), (P_at a y b : P a y (Z.of_nat c) = _) end;
    try rewrite S2; unfold weight; cbn [Nat.add Nat.sub]; rewrite ?fact_1; cbn [fact qs dfact INR]; field.
Qed.
Theorem C50_few_streams : forall m k n_coef2 x y Yx Yy, (m <= k)%nat -> (k <= 5)%nat -> (k < n_coef2)%nat -> -1 <= x <= 1 -> -1 <= y <= 1 ->
  holds m n_coef2 x Yx -> holds m n_coef2 y Yy ->
  exists u v, calc_Y_x m x k = Some u /\ calc_Y_x m y k = Some v /\ u * v = Yx k * Yy k.
Proof.
  intros m k n2 x y Yx Yy Hm Hk Hn Hx Hy Hx' Hy'. destruct (calc_T m k x y Hm Hk Hx Hy) as [u [v [E1 [E2 E]]]].
  exists u, v. split; [exact E1|split; [exact E2|]]. rewrite E, <- Yv_prod, (holds_val m n2 x Yx k), (holds_val m n2 y Yy k) by (assumption || lia). reflexivity.
Qed.

Print Assumptions C50_inside.
Print Assumptions C50_no_coefficients_refuted.
Print Assumptions C50_streams.
Print Assumptions C50_sun.
Print Assumptions C50_reciprocal.
Print Assumptions C50_derivatives.
Print Assumptions C50_adjoint_streams.
Print Assumptions C50_adjoint_sun.
Print Assumptions C50_adjoint_single.
Print Assumptions C50_conserves.
Print Assumptions C50_scatters.
Print Assumptions C50_few_streams.
