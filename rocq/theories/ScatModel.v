(** The scalar scattering code: Legendre polynomials and associated functions (misc/rtutil_math.c 450-608), the phase function and its
    Fourier components (src/xrtm_scatter.c 24-355), their use by src/xrtm_model.c (535-573, 646-690, 882-894, 1327-1342) and the
    adjoints (src/xrtm_scatter_a.c 25-122).
    Numbers are reals.  An array is a function from indices with a length where it matters: a write at or beyond the length is [None].
    Simplified: the loops over the angles, which do not interact, are one run for each angle; the product
    (j - m + 1) * (j + m + 1), an int in C, is exact (it overflows from 46341 coefficients on). *)
From Coq Require Import Reals Arith Bool.
Open Scope R_scope.

Definition array := nat -> R.
(** C [y[i] = v] on an array of [len] doubles *)
Definition put (len i : nat) (v : R) (y : array) : option array :=
  if (i <? len)%nat then Some (fun k => if (k =? i)%nat then v else y k) else None.
Definition bind {A} (a : option A) (f : A -> option A) : option A := match a with Some x => f x | None => None end.
(** C [for (j = i; j < i + k; ++j) f] *)
Fixpoint run {A} (k i : nat) (f : nat -> A -> option A) (s : A) : option A :=
  match k with O => Some s | S k' => bind (f i s) (run k' (S i) f) end.

(** leg_poly (misc/rtutil_math.c:450-472), leg_poly2 (477-512) for one angle *)
Definition leg_poly (len n_l : nat) (mu : R) (p : array) : option array :=
  bind (put len 0 1 p) (fun p =>
  bind (if (1 <? n_l)%nat then put len 1 mu p else Some p) (fun p =>
  run (n_l - 2) 1 (fun j p => let a := INR j / (INR j + 1) in let b := mu * p j in
    put len (j + 1) (a * (b - p (j - 1)%nat) + b) p) p)).

(** misc/rtutil_math.c:567-577: the factors cn and dn of the order m from those of the order before *)
Definition step_factors (m : nat) (cd : R * R) : R * R :=
  if (m =? 0)%nat then (1, 1) else let a := 2 * INR m in (fst cd * - sqrt ((a - 1) / a), snd cd * - sqrt ((a + 1) / a)).
(** Y_x_get, src/xrtm_model.c:560-569: one call for each order from 0 to m.  What cn and dn held before is read by none of them. *)
Fixpoint factors (m : nat) : R * R := step_factors m (match m with O => (0, 0) | S k => factors k end).

(** pow(x, m / 2.), x >= 0 *)
Definition half_power (x : R) (m : nat) : R := sqrt x ^ m.
(** leg_poly_assoc (misc/rtutil_math.c:543-548), leg_poly_assoc2 (553-608) for one angle *)
Definition leg_poly_assoc (m len n_l : nat) (mu : R) (cd : R * R) (y : array) : option array :=
  bind
    (if (m =? 0)%nat then
       bind (put len 0 1 y) (fun y => if (1 <? n_l)%nat then put len 1 mu y else Some y)
     else
       bind (run m 0 (fun j y => put len j 0 y) y) (fun y =>
       let a := half_power (1 - mu * mu) m in
       bind (put len m (fst cd * a) y) (fun y =>
       if (m + 1 <? n_l)%nat then put len (m + 1) (snd cd * mu * a) y else Some y)))
    (run (n_l - 1 - (m + 1)) (m + 1) (fun j y =>
       let b := sqrt (INR ((j - m + 1) * (j + m + 1))) in
       let a := sqrt (INR ((j + m) * (j - m))) in
       put len (j + 1) ((INR (2 * j + 1) * mu * y j - a * y (j - 1)%nat) / b) y)).

(** calc_Y_x, src/xrtm_scatter.c:49-103, as the values it stores *)
Definition calc_Y_x (i_four : nat) (x : R) (k : nat) : option R :=
  let x2 := x * x in let x3 := x2 * x in let x4 := x3 * x in
  let a1 := sqrt (1 - x2) in let a2 := a1 * a1 * a1 in let a3 := a2 * a1 in let a4 := a3 * a1 in
  match i_four, k with
  | 0%nat, 0%nat => Some 1
  | 0%nat, 1%nat => Some x
  | 0%nat, 2%nat => Some (1 / 2 * (3 * x2 - 1))
  | 0%nat, 3%nat => Some (1 / 2 * (5 * x3 - 3 * x))
  | 0%nat, 4%nat => Some (1 / 8 * (35 * x4 - 30 * x2 + 3))
  | 0%nat, 5%nat => Some (1 / 8 * x * (63 * x4 - 70 * x2 + 15))
  | 1%nat, 1%nat => Some (- a1 / sqrt 2)
  | 1%nat, 2%nat => Some (-3 * x * a1 / sqrt 6)
  | 1%nat, 3%nat => Some (-3 / 2 * (5 * x2 - 1) * a1 / sqrt 12)
  | 1%nat, 4%nat => Some (5 / 2 * (7 * x3 - 3 * x) * a1 / sqrt 20)
  | 1%nat, 5%nat => Some (15 / 8 * a1 * (21 * x4 - 14 * x2 + 1) / sqrt 30)
  | 2%nat, 2%nat => Some (3 * (1 - x2) / sqrt 24)
  | 2%nat, 3%nat => Some (15 * x * (1 - x2) / sqrt 120)
  | 2%nat, 4%nat => Some (15 / 2 * (7 * x2 - 1) * (1 - x2) / sqrt 360)
  | 2%nat, 5%nat => Some (105 / 2 * x * (1 - x2) * (3 * x2 - 1) / sqrt 840)
  | 3%nat, 3%nat => Some (-15 * a2 / sqrt 720)
  | 3%nat, 4%nat => Some (105 * x * a2 / sqrt 5040)
  | 3%nat, 5%nat => Some (105 / 2 * a2 * (9 * x2 - 1) / sqrt 20160)
  | 4%nat, 4%nat => Some (105 * a3 / sqrt 40320)
  | 4%nat, 5%nat => Some (945 * x * a3 / sqrt 362880)
  | 5%nat, 5%nat => Some (945 * a4 / sqrt 3628800)
  | _, _ => None
  end.

(** scat_angle, src/xrtm_scatter.c:24-28; D2R (misc/gutil.h:457) *)
Definition D2R : R := PI / 180.
Definition scat_angle (mu_0 phi_0 mu phi : R) : R :=
  mu * mu_0 + sqrt (1 - mu * mu) * sqrt (1 - mu_0 * mu_0) * cos ((phi - phi_0) * D2R).
(** phase_func, src/xrtm_scatter.c:35-42 *)
Fixpoint phase_func (n_coef : nat) (p coefs : array) : R :=
  match n_coef with O => 0 | S i => phase_func i p coefs + p i * coefs i end.
(** phase_polys_get and phase_func_get, src/xrtm_model.c:646-660 and 675-690, scalar; [len] is the length of the array of polynomials *)
Definition phase_func_get (len n_coef : nat) (coefs : array) (mu1 phi1 mu2 phi2 : R) : option R :=
  match leg_poly len n_coef (scat_angle mu1 phi1 mu2 phi2) (fun _ => 0) with Some p => Some (phase_func n_coef p coefs) | None => None end.

(** C [for (k = i; k < n_coef; k += 2) acc += f(k)] from acc = 0 *)
Fixpoint every_other (k i : nat) (f : array) (acc : R) : R := match k with O => acc | S k' => every_other k' (i + 2) f (acc + f i) end.
Definition alternate (i n_coef : nat) (f : array) : R := every_other (Nat.div2 (n_coef - i + 1)) i f 0.
(** build_phase_vecs_scalar, src/xrtm_scatter.c:137-212 *)
Definition build_phase_vecs (i_four n_coef : nat) (Y1 : nat -> array) (Y2 coefs : array) : array * array :=
  let p i := alternate i_four n_coef (fun k => coefs k * Y2 k * Y1 i k) in
  let m i := alternate (i_four + 1) n_coef (fun k => coefs k * Y2 k * Y1 i k) in
  let a := 2 - (if (i_four =? 0)%nat then 1 else 0) in
  (fun i => (p i + m i) * a, fun i => (p i - m i) * a).
(** build_phase_mats_scalar, src/xrtm_scatter.c:218-355 *)
Definition build_phase_mats (i_four n_coef : nat) (Y1 Y2 : nat -> array) (coefs : array) : (nat -> array) * (nat -> array) :=
  let p i j := alternate i_four n_coef (fun k => coefs k * Y1 i k * Y2 j k) in
  let m i j := alternate (i_four + 1) n_coef (fun k => coefs k * Y1 i k * Y2 j k) in
  let a := 2 - (if (i_four =? 0)%nat then 1 else 0) in
  (fun i j => (p i j + m i j) * a, fun i j => (p i j - m i j) * a).

(** Reverse mode, src/xrtm_scatter_a.c: phase_func_a (25-31) *)
Definition phase_func_a (n_coef : nat) (p coefs_a : array) (P_a : R) : array := fun k => if (k <? n_coef)%nat then coefs_a k + p k * P_a else coefs_a k.
Fixpoint sum (n : nat) (f : array) : R := match n with O => 0 | S k => sum k f + f k end.
(** C [for (k = i; k < n_coef; k += 2) coefs_a[k] += g(k)] *)
Fixpoint every_other_a (k i : nat) (g : array) (ca : array) : array :=
  match k with O => ca | S k' => every_other_a k' (i + 2) g (fun q => if (q =? i)%nat then ca q + g i else ca q) end.
Definition alternate_a (i n_coef : nat) (g ca : array) : array := every_other_a (Nat.div2 (n_coef - i + 1)) i g ca.
(** build_phase_vecs_scalar_a (38-73): the adjoints of the coefficients *)
Definition build_phase_vecs_a (i_four n_coef n_mus : nat) (Y1 : nat -> array) (Y2 coefs_a P_pp_a P_mp_a : array) : array :=
  let a := 2 - (if (i_four =? 0)%nat then 1 else 0) in
  let b i := P_pp_a i * a in let c i := P_mp_a i * a in
  let ca := alternate_a i_four n_coef (fun k => sum n_mus (fun i => (b i + c i) * Y1 i k) * Y2 k) coefs_a in
  alternate_a (i_four + 1) n_coef (fun k => sum n_mus (fun i => (b i - c i) * Y1 i k) * Y2 k) ca.
(** build_phase_mats_scalar_a (80-122): [coefs_a[k] += a * Y1[i][k]] for each i *)
Definition build_phase_mats_a (i_four n_coef n_mus1 n_mus2 : nat) (Y1 Y2 : nat -> array) (coefs_a : array) (P_pp_a P_mp_a : nat -> array) : array :=
  let a := 2 - (if (i_four =? 0)%nat then 1 else 0) in
  let b i j := P_pp_a i j * a in let c i j := P_mp_a i j * a in
  let ca := alternate_a i_four n_coef (fun k => sum n_mus1 (fun i => sum n_mus2 (fun j => (b i j + c i j) * Y2 j k) * Y1 i k)) coefs_a in
  alternate_a (i_four + 1) n_coef (fun k => sum n_mus1 (fun i => sum n_mus2 (fun j => (b i j - c i j) * Y2 j k) * Y1 i k)) ca.

(** get_Y_p and get_Y_u (src/xrtm_model.c:578-641): the functions of the order i_four at one angle; get_Y_0: at - mu_0.  The arrays hold
    n_coef2 doubles for each angle (src/xrtm_interface.c:1176-1187). *)
Definition get_Y (i_four n_coef2 : nat) (mu : R) (y : array) : option array := leg_poly_assoc i_four n_coef2 n_coef2 mu (factors i_four) y.
Definition get_Y_0 (i_four n_coef2 : nat) (mu_0 : R) (y : array) : option array := get_Y i_four n_coef2 (- mu_0) y.
(** phase_vecs_get, src/xrtm_model.c:877-890: the results are passed in the order (P_pm, P_pp) and returned as (P_pp, P_pm) *)
Definition phase_vecs_get (i_four n_coef : nat) (Y1 : nat -> array) (Y_0 coefs : array) : array * array :=
  let r := build_phase_vecs i_four n_coef Y1 Y_0 coefs in (snd r, fst r).
(** xrtm_create, src/xrtm_interface.c:829 (n_coef < 0 is refused) and 1010-1030: n_four and n_coef2 *)
Definition orders (n_coef n_quad : nat) (no_azimuthal : bool) : nat * nat :=
  let '(n_four, n_coef2) := if (n_coef =? 0)%nat then (1, 0)%nat else if (n_coef <=? 2 * n_quad)%nat then (n_coef, n_coef) else (2 * n_quad, 2 * n_quad)%nat in
  (if no_azimuthal then 1%nat else n_four, n_coef2).
