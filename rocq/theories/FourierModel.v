(** The sum over azimuth modes: src/xrtm_model.c:6060-6110 (azimuth_modes,
    max_radiance_ratio) and the loop of get_solution_internal, 6233-6379, as far as the
    radiances and their derivatives go; src/xrtm_model_a.c:3272-3307 (azimuth_modes_a).
    What get_fourier and apply_corrections_fourier leave in the work arrays is an input of
    the model ([term]); mean radiances, fluxes and the saving for reverse mode are left out.
    cos and sin of the azimuth are inputs too. *)
From Coq Require Import ZArith List Bool SpecFloat.
From Verif Require Import Dbl DerivsModel.
Import ListNotations.
Open Scope nat_scope.

(** C [a * b], [a / b]; MAX (misc/gutil.h:296) *)
Definition dmul (a b : dbl) : dbl := SFmul 53 1024 a b.
Definition ddiv (a b : dbl) : dbl := SFdiv 53 1024 a b.
Definition dmax (a b : dbl) : dbl := if dgt a b then a else b.

(** src/xrtm_model.c:6060-6096, over any number type *)
Section Modes.
Variables (T : Type) (mul add : T -> T -> T).
Definition set1 (v : nat -> T) (i : nat) (x : T) : nat -> T := fun k => if Nat.eqb k i then x else v k.
(** One stream: the assignments of one loop body, [ii++] after each. *)
Definition put_modes (factors : list T) (v1 : nat -> T) : (nat -> T) * nat -> (nat -> T) * nat :=
  fun s => fold_left (fun '(v2, ii) f => (set1 v2 ii (mul (v1 ii) f), S ii)) factors s.
Definition azimuth_modes (n_quad n_stokes : nat) (a b : T) (v1 v2 : nat -> T) : nat -> T :=
  fst (loop n_quad (fun _ => put_modes
         match n_stokes with 1 => [a] | 2 => [a; a] | 3 => [a; a; b] | _ => [a; a; b; b] end v1) (v2, 0)).
(** src/xrtm_model_a.c:3272-3307: [v1[ii] += v2[ii] * f] *)
Definition put_modes_a (factors : list T) (v2 : nat -> T) : (nat -> T) * nat -> (nat -> T) * nat :=
  fun s => fold_left (fun '(v1, ii) f => (set1 v1 ii (add (v1 ii) (mul (v2 ii) f)), S ii)) factors s.
Definition azimuth_modes_a (n_quad n_stokes : nat) (a b : T) (v1 v2 : nat -> T) : nat -> T :=
  fst (loop n_quad (fun _ => put_modes_a
         match n_stokes with 1 => [a] | 2 => [a; a] | 3 => [a; a; b] | _ => [a; a; b; b] end v2) (v1, 0)).
End Modes.
Arguments azimuth_modes {T}. Arguments azimuth_modes_a {T}. Arguments set1 {T}.

(** src/xrtm_model.c:6100-6110 *)
Definition max_radiance_ratio (I1 I2 : dbl) : dbl :=
  if negb (deq I1 d_zero) then dmax d_zero (dabs (ddiv I2 I1)) else d_zero.

(** Members of xrtm_data and arguments read by the loop. *)
Record fcfg := {
  f_levels : nat; f_mus : nat; f_first_mu : nat; f_phis : nat; f_stokes : nat; f_derivs : nat; f_four : nat;
  f_up : bool; f_down : bool; f_tol : dbl;
  f_cos : nat -> nat -> nat -> dbl; f_sin : nat -> nat -> nat -> dbl }.  (* mode, angle, azimuth *)

(** One Fourier component: i_p, i_m[level][stream component], i_p_l, i_m_l[level][derivative][...] *)
Record component := { c_p : nat -> nat -> dbl; c_m : nat -> nat -> dbl;
  c_pl : nat -> nat -> nat -> dbl; c_ml : nat -> nat -> nat -> dbl }.

(** The arrays written: [level][angle][azimuth] to a Stokes vector. *)
Definition field := nat -> nat -> nat -> nat -> dbl.
Record rad := { r_p : field; r_m : field; r_pl : nat -> field; r_ml : nat -> field; r_e : dbl }.

(** dvec_add(I[j][k][l], v, I[j][k][l], n_stokes) *)
Definition accumulate (n : nat) (f : field) (j k l : nat) (v : nat -> dbl) : field :=
  loop n (fun s f => fun j' k' l' s' =>
    if Nat.eqb j' j && Nat.eqb k' k && Nat.eqb l' l && Nat.eqb s' s then dadd (f j k l s) (v s) else f j' k' l' s') f.

Section Series.
Variables (g : fcfg) (term : nat -> option component).
Notation ns := (f_stokes g).
(** &x[kk] *)
Definition from (v : nat -> dbl) (kk : nat) : nat -> dbl := fun s => v (kk + s).
Definition modes (b c : dbl) (v : nat -> dbl) : nat -> dbl := azimuth_modes dmul 1 ns b c v (fun _ => d_zero).

(** 6320-6357 *)
Definition azimuth (i : nat) (t : component) (j k l kk : nat) (r : rad) : rad :=
  let b := f_cos g i k l in let c := f_sin g i k l in
  let v1 := modes b c (from (c_p t j) kk) in
  let v2 := modes b c (from (c_m t j) kk) in
  let p := if f_up g then accumulate ns (r_p r) j k l v1 else r_p r in
  let m := if f_down g then accumulate ns (r_m r) j k l v2 else r_m r in
  let e := if dgt (f_tol g) d_zero && Nat.ltb 0 i then
             let e := if f_up g then dmax (r_e r) (max_radiance_ratio (p j k l 0) (v1 0)) else r_e r in
             if f_down g then dmax e (max_radiance_ratio (m j k l 0) (v2 0)) else e
           else r_e r in
  let '(pl, ml) := loop (f_derivs g) (fun q '(pl, ml) =>
      (if f_up g then fun q' => if Nat.eqb q' q then accumulate ns (pl q) j k l (modes b c (from (c_pl t j q) kk)) else pl q' else pl,
       if f_down g then fun q' => if Nat.eqb q' q then accumulate ns (ml q) j k l (modes b c (from (c_ml t j q) kk)) else ml q' else ml))
    (r_pl r, r_ml r) in
  {| r_p := p; r_m := m; r_pl := pl; r_ml := ml; r_e := e |}.
(** 6314-6362 *)
Definition add_term (i : nat) (t : component) (r : rad) : rad :=
  loop (f_levels g) (fun j r =>
    fst (loop (f_mus g) (fun k '(r, kk) =>
      (loop (f_phis g) (fun l r => azimuth i t j k l kk r) r, kk + ns)) (r, f_first_mu g * ns)))
  {| r_p := r_p r; r_m := r_m r; r_pl := r_pl r; r_ml := r_ml r; r_e := d_zero |}.

(** 6233-6375, [m] modes left; the result is (fourier_count, arrays), None when a component fails *)
Fixpoint series (m i count : nat) (r : rad) : option (nat * rad) :=
  match m with
  | O => Some (i, r)
  | S m' => match term i with
            | None => None
            | Some t =>
                let r := add_term i t r in
                let count := if Nat.ltb 0 i && dlt (r_e r) (f_tol g) then S count else 0 in
                if Nat.leb 2 count then Some (S i, r) else series m' (S i) count r
            end
  end.
Definition solve (r : rad) : option (nat * rad) := series (f_four g) 0 0 r.
End Series.
