(** Delta-M scaling of the optical properties of the layers: src/xrtm_utility.c:632-884, its
    adjoint src/xrtm_utility_a.c:25-168, and the routines that apply them to a handle:
    get_delta_m_f and update_opt_props, src/xrtm_model.c:158-184 and 271-361, the scaled level
    depths of update_utaus, 234-247, and opt_props_update_a, src/xrtm_model_a.c:42-57 and 139-177.
    Arithmetic is over the reals: rounding is not modelled.  Arrays are functions from indices;
    the one array the code indexes in the wrong order has its dimensions checked ([None] is a read
    outside of it). *)
From Coq Require Import Reals Bool Arith.
From Verif Require Import DerivsModel.
Open Scope nat_scope.
Open Scope R_scope.

(** [x[i] = v] *)
Definition set1 {T} (a : nat -> T) (i : nat) (v : T) : nat -> T := fun j => if (j =? i)%nat then v else a j.
(** [x[i][j] = v] *)
Definition set2 {T} (a : nat -> nat -> T) (i j : nat) (v : T) : nat -> nat -> T :=
  fun p q => if ((p =? i) && (q =? j))%nat then v else a p q.
Definition two_j_1 (j : nat) : R := 2 * INR j + 1.

(** xrtm_utility.c:632-646, 648-661; the linearised loop is written for one derivative and
    [each n_derivs] runs it. *)
Definition delta_m_g (f g : R) : R := let a := 1 - f in (g - f) / a.
Definition delta_m_g_l (f g : R) (f_l g_l : R) : R :=
  let a := 1 - f in let b := g - f in (g_l - f_l + b * f_l / a) / a.

(** xrtm_utility.c:665-699, without the call of the linearised routine *)
Definition delta_m_coef (n_coef : nat) (allsix gc : bool) (f : R) (coef coef_prime : nat -> nat -> R) : nat -> nat -> R :=
  let a := 1 - f in
  loop n_coef (fun i c' =>
    let b := two_j_1 i * f in
    let c' := set2 c' 0 i ((coef 0%nat i - b) / a) in
    if allsix then
      let c' := set2 c' 1 i ((coef 1%nat i - b) / a) in
      let c' := set2 c' 2 i ((coef 2%nat i - b) / a) in
      let c' := set2 c' 3 i ((coef 3%nat i - b) / a) in
      if gc then let c' := set2 c' 4 i (coef 4%nat i / a) in set2 c' 5 i (coef 5%nat i / a)
      else let c' := set2 c' 4 i (coef 4%nat i) in set2 c' 5 i (coef 5%nat i)
    else c') coef_prime.
(** xrtm_utility.c:703-746, one derivative *)
Definition delta_m_coef_l (n_coef : nat) (allsix gc : bool) (f f_l : R) (coef coef_l coef_prime_l : nat -> nat -> R)
  : nat -> nat -> R :=
  let a := 1 - f in
  loop n_coef (fun j c' =>
    let b := two_j_1 j in let c := b * f in let d := b * f_l in let e := f_l / a in
    let v r := ((coef_l r j - d) + (coef r j - c) * e) / a in
    let c' := set2 c' 0 j (v 0%nat) in
    if allsix then
      let c' := set2 c' 1 j (v 1%nat) in
      let c' := set2 c' 2 j (v 2%nat) in
      let c' := set2 c' 3 j (v 3%nat) in
      if gc then let c' := set2 c' 4 j ((coef_l 4%nat j + coef 4%nat j * e) / a) in
                 set2 c' 5 j ((coef_l 5%nat j + coef 5%nat j * e) / a)
      else let c' := set2 c' 4 j (coef_l 4%nat j) in set2 c' 5 j (coef_l 5%nat j)
    else c') coef_prime_l.

(** xrtm_utility.c:750-765, 769-787 *)
Definition delta_m_omega (f omega : R) : R := let a := 1 - f in let b := 1 - omega * f in a / b * omega.
Definition delta_m_omega_l (f f_l omega omega_l : R) : R :=
  let a := 1 - f in let b := 1 - omega * f in let c := omega * f_l in
  (omega_l * a - c) / b + omega * a * (omega_l * f + c) / (b * b).

(** xrtm_utility.c:791-806, 810-823 *)
Definition delta_m_ltau (f omega ltau : R) : R := let a := 1 - omega * f in a * ltau.
Definition delta_m_ltau_l (f f_l omega omega_l ltau ltau_l : R) : R :=
  let a := 1 - omega * f in - (omega_l * f + omega * f_l) * ltau + a * ltau_l.

(** xrtm_utility.c:872-884 *)
Definition n_t_tms_scaling (f omega0 : R) : R := let a := 1 - f * omega0 in omega0 / a.
Definition n_t_tms_scaling_l (f f_l omega0 omega0_l : R) : R :=
  let a := 1 - f * omega0 in let omega_tms := omega0 / a in
  (omega0_l - omega_tms * (- f_l * omega0 - f * omega0_l)) / a.

(* ------------------------------------------------------------------------- *)
(** * Applied to a handle                                                     *)

(** What the routines read of the handle's configuration. *)
Record dcfg := {
  c_layers : nat; c_derivs : nat;
  (* solvers & XRTM_SOLVERS_USE_G, _USE_COEF; the first mask is empty unless solvers that are not
     part of the published sources are built in (src/xrtm_support.h:37, 72) *)
  c_use_g : bool; c_use_coef : bool;
  c_ncoef2 : nat; c_ncoef_layer : nat -> nat;
  c_allsix : bool;                        (* n_stokes != 1 *)
  c_gc : bool }.                          (* coef_type == SCAT_COEF_GC *)
(** The optical properties of one layer (values, or one derivative of them). *)
Record props := { p_g : R; p_omega : R; p_ltau : R; p_coef : nat -> nat -> R }.
(** Unscaled values per layer; unscaled derivatives per layer and derivative. *)
Record unscaled := { u_val : nat -> props; u_lin : nat -> nat -> props }.
(** g0_l[i][j], allocated with n_layers by n_derivs entries (src/xrtm_interface.c:1317) *)
Definition read_g0_l (c : dcfg) (u : unscaled) (i j : nat) : option R :=
  if ((i <? c_layers c) && (j <? c_derivs c))%nat then Some (p_g (u_lin u i j)) else None.

(** xrtm_model.c:158-184 with i_deriv = 0.  In the asymmetry parameter branch the derivative
    is read as g0_l[i][i_layer] (line 167). *)
Definition delta_m_f (c : dcfg) (u : unscaled) (layer : nat) : R :=
  let a := two_j_1 (c_ncoef2 c) in
  if c_use_g c then p_g (u_val u layer) * p_g (u_val u layer)
  else if (c_ncoef_layer c layer <=? c_ncoef2 c)%nat then 0
  else p_coef (u_val u layer) 0 (c_ncoef2 c) / a.
Definition delta_m_f_l (c : dcfg) (u : unscaled) (layer i : nat) : option R :=
  let a := two_j_1 (c_ncoef2 c) in
  if c_use_g c then option_map (fun gl => 2 * p_g (u_val u layer) * gl) (read_g0_l c u i layer)
  else if (c_ncoef_layer c layer <=? c_ncoef2 c)%nat then Some 0
  else Some (p_coef (u_lin u layer i) 0 (c_ncoef2 c) / a).

(** Bits of dep_flags_opt_props[layer]. *)
Record dflags := { f_g : bool; f_g_l : bool; f_coef : bool; f_coef_l : bool;
  f_omega : bool; f_omega_l : bool; f_ltau : bool; f_ltau_l : bool }.
(** xrtm_model.c:271-361, the values of layer [layer]: [old] is what the scaled arrays held.  The
    second branch below is the one with derivatives; it treats the values alike. *)
Definition update_values (c : dcfg) (fl : dflags) (u : unscaled) (layer : nat) (old : props) : props :=
  let f := delta_m_f c u layer in let x := u_val u layer in
  let g_now := c_use_g c && f_g fl in
  {| p_g := if g_now then delta_m_g f (p_g x) else p_g old;
     p_coef := if negb g_now && (c_use_coef c && f_coef fl)
               then delta_m_coef (c_ncoef2 c) (c_allsix c) (c_gc c) f (p_coef x) (p_coef old) else p_coef old;
     p_omega := if f_omega fl then delta_m_omega f (p_omega x) else p_omega old;
     p_ltau := if f_ltau fl then delta_m_ltau f (p_omega x) (p_ltau x) else p_ltau old |}.
(** The values when CALC_DERIVS is on (326-341): with the asymmetry parameter in use and G down
    but G_L up, the coefficients are passed over as well. *)
Definition update_values_d (c : dcfg) (fl : dflags) (u : unscaled) (layer : nat) (old : props) : props :=
  let f := delta_m_f c u layer in let x := u_val u layer in
  let g_now := c_use_g c && f_g fl in let g_l_now := c_use_g c && f_g_l fl in
  {| p_g := if g_now then delta_m_g f (p_g x) else p_g old;
     p_coef := if negb (g_now || g_l_now) && (c_use_coef c && f_coef fl)
               then delta_m_coef (c_ncoef2 c) (c_allsix c) (c_gc c) f (p_coef x) (p_coef old) else p_coef old;
     p_omega := if f_omega fl then delta_m_omega f (p_omega x) else p_omega old;
     p_ltau := if f_ltau fl then delta_m_ltau f (p_omega x) (p_ltau x) else p_ltau old |}.
(** The derivatives (326-353), derivative [i] of layer [layer]. *)
Definition update_derivs (c : dcfg) (fl : dflags) (u : unscaled) (layer i : nat) (old : props) : option props :=
  let f := delta_m_f c u layer in let x := u_val u layer in let y := u_lin u layer i in
  let g_any := c_use_g c && (f_g fl || f_g_l fl) in
  match delta_m_f_l c u layer i with
  | None => None
  | Some f_l => Some
  {| p_g := if g_any then delta_m_g_l f (p_g x) f_l (p_g y) else p_g old;
     p_coef := if negb g_any && (c_use_coef c && (f_coef fl || f_coef_l fl))
               then delta_m_coef_l (c_ncoef2 c) (c_allsix c) (c_gc c) f f_l (p_coef x) (p_coef y) (p_coef old) else p_coef old;
     p_omega := if f_omega fl || f_omega_l fl then delta_m_omega_l f f_l (p_omega x) (p_omega y) else p_omega old;
     p_ltau := if f_ltau fl || f_ltau_l fl then delta_m_ltau_l f f_l (p_omega x) (p_omega y) (p_ltau x) (p_ltau y) else p_ltau old |}
  end.
(** utaus2[i] of update_utaus, xrtm_model.c:240-246; [depth] is utaus20[i], the depth below the
    top of the layer. *)
Definition scaled_level (c : dcfg) (u : unscaled) (layer : nat) (depth : R) : R :=
  delta_m_ltau (delta_m_f c u layer) (p_omega (u_val u layer)) depth.

(* ------------------------------------------------------------------------- *)
(** * Adjoint                                                                 *)

(** Adjoints of the unscaled inputs of the layer, of f, and of the scaled properties. *)
Record adjs := { a_in : props; a_f : R; a_out : props }.
Definition with_in (s : adjs) (f_a : R) (x : props) := {| a_in := x; a_f := f_a; a_out := a_out s |}.
(** xrtm_utility_a.c:119-136 *)
Definition delta_m_ltau_a (f omega ltau : R) (s : adjs) : adjs :=
  let a := 1 - omega * f in
  let t := - p_ltau (a_out s) * ltau in
  {| a_in := {| p_g := p_g (a_in s); p_omega := p_omega (a_in s) + t * f;
                p_ltau := p_ltau (a_in s) + p_ltau (a_out s) * a; p_coef := p_coef (a_in s) |};
     a_f := a_f s + t * omega;
     a_out := {| p_g := p_g (a_out s); p_omega := p_omega (a_out s); p_ltau := 0; p_coef := p_coef (a_out s) |} |}.
(** xrtm_utility_a.c:94-115 *)
Definition delta_m_omega_a (f omega : R) (s : adjs) : adjs :=
  let a := 1 - f in let b := 1 - omega * f in
  let t := p_omega (a_out s) / b in
  let w := p_omega (a_in s) + t * a in let fa := a_f s - t * omega in
  let t := t * (omega * a / b) in
  {| a_in := {| p_g := p_g (a_in s); p_omega := w + t * f; p_ltau := p_ltau (a_in s); p_coef := p_coef (a_in s) |};
     a_f := fa + t * omega;
     a_out := {| p_g := p_g (a_out s); p_omega := 0; p_ltau := p_ltau (a_out s); p_coef := p_coef (a_out s) |} |}.
(** xrtm_utility_a.c:25-90.  State of the first loop: coef_a and *f_a.  One element of the first four rows. *)
Definition coef_a_row (f : R) (coef out : nat -> nat -> R) (j r : nat) (s : (nat -> nat -> R) * R) : (nat -> nat -> R) * R :=
  let a := 1 - f in let b := two_j_1 j in let c := b * f in
  let t := out r j / a in (set2 (fst s) r j (fst s r j + t), snd s + t * (- b + (coef r j - c) / a)).
(** the last two rows: scaled like the others or copied *)
Definition coef_a_row56 (gc : bool) (f : R) (coef out : nat -> nat -> R) (j r : nat) (s : (nat -> nat -> R) * R) : (nat -> nat -> R) * R :=
  let a := 1 - f in
  if gc then let t := out r j / a in (set2 (fst s) r j (fst s r j + t), snd s + t * coef r j / a)
  else (set2 (fst s) r j (fst s r j + out r j), snd s).
Definition coef_a_loop (n_coef : nat) (allsix gc : bool) (f : R) (coef out : nat -> nat -> R)
  (s : (nat -> nat -> R) * R) : (nat -> nat -> R) * R :=
  loop n_coef (fun j s =>
    let row := coef_a_row f coef out j in let row' := coef_a_row56 gc f coef out j in
    if allsix then row' 5%nat (row' 4%nat (row 3%nat (row 2%nat (row 1%nat (row 0%nat s)))))
    else row 0%nat s) s.
Definition coef_zero_loop (n_coef : nat) (allsix : bool) (out : nat -> nat -> R) : nat -> nat -> R :=
  loop n_coef (fun j o =>
    let o := set2 o 0 j 0 in
    if allsix then set2 (set2 (set2 (set2 (set2 o 1 j 0) 2 j 0) 3 j 0) 4 j 0) 5 j 0 else o) out.
Definition delta_m_coef_a (n_coef : nat) (allsix gc : bool) (f : R) (coef : nat -> nat -> R) (s : adjs) : adjs :=
  let '(ca, fa) := coef_a_loop n_coef allsix gc f coef (p_coef (a_out s)) (p_coef (a_in s), a_f s) in
  {| a_in := {| p_g := p_g (a_in s); p_omega := p_omega (a_in s); p_ltau := p_ltau (a_in s); p_coef := ca |};
     a_f := fa;
     a_out := {| p_g := p_g (a_out s); p_omega := p_omega (a_out s); p_ltau := p_ltau (a_out s);
                 p_coef := coef_zero_loop n_coef allsix (p_coef (a_out s)) |} |}.
(** xrtm_model_a.c:42-57: nothing is done for the asymmetry parameter *)
Definition delta_m_f_a (c : dcfg) (layer : nat) (s : adjs) : adjs :=
  let a := two_j_1 (c_ncoef2 c) in
  if c_use_g c then s
  else if (c_ncoef_layer c layer <=? c_ncoef2 c)%nat then with_in s 0 (a_in s)
  else with_in s 0 {| p_g := p_g (a_in s); p_omega := p_omega (a_in s); p_ltau := p_ltau (a_in s);
         p_coef := set2 (p_coef (a_in s)) 0 (c_ncoef2 c) (p_coef (a_in s) 0%nat (c_ncoef2 c) + a_f s / a) |}.
(** xrtm_model_a.c:139-177 with DELTA_M on *)
Definition opt_props_update_a (c : dcfg) (u : unscaled) (layer : nat) (s : adjs) : adjs :=
  let f := delta_m_f c u layer in let x := u_val u layer in
  let s := {| a_in := a_in s; a_f := 0; a_out := a_out s |} in
  let s := delta_m_ltau_a f (p_omega x) (p_ltau x) s in
  let s := delta_m_omega_a f (p_omega x) s in
  let s := delta_m_coef_a (c_ncoef2 c) (c_allsix c) (c_gc c) f (p_coef x) s in
  delta_m_f_a c layer s.
(** xrtm_utility_a.c:157-168: the new adjoints of f and omega0 *)
Definition n_t_tms_scaling_a (f f_a omega0 omega_tms omega0_a omega_tms_a : R) : R * R :=
  let t := omega_tms_a / (1 - f * omega0) in
  let w := omega0_a + t in
  let fa := f_a + t * omega_tms * omega0 in
  (fa, w + t * omega_tms * f).
