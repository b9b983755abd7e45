(** The derivatives of the boundary value solver: solve_bvp, calc_radiance_levels and calc_radiance_taus of src/xrtm_eig_bvp_x.c, the loops over
    n_derivs, for one of them.  Same scope as BvpModel.  A [waves] [wl k] holds the entries of ltau_l, atran_l, as_0_l, nu_l, X_p_l, ... of
    layer k; dl, db, dt: derivs_layers, derivs_beam, derivs_thermal; the entry of derivs_layers after those of the layers is that of the surface.
    Arrays that are written under one flag and read only under the same flag are given without it. *)
From Coq Require Import Reals Bool Arith ZArith List.
From Verif Require Import Base DeltaMSpec AddingModel RadianceModel EigModel EigDModel BvpModel.
Import ListNotations.
Open Scope R_scope.

Definition when (b : bool) (x : R) : R := if b then x else 0.
(** 411-417, 775-781 *)
Definition lam_l (w wl : waves) : vec := fun j => - (b_nu wl j * b_ltau w + b_nu w j * b_ltau wl) * lam w j.

Section Ops.
Variable n : nat.
Variable gb : nat -> nat -> nat -> mat -> option (vec -> vec).
Variable m : nat.                                     (* n_layers - 1 *)
Variables ws wl : nat -> waves.
Variable surf : option mat.
Variable Rs_l : mat.                                  (* Rs_qq_l[m] *)
Variables dl db dt : nat -> bool.
Variables (solar thermal : bool).
Variables (top_l bot_l : vec).                        (* I1_m_l[m], In_p_l[m] *)
(** for (j = 0; j < n_quad_v; ++j) B_l[m][q n_quad_v + j] = v[j] *)
Definition set_at (q : nat) (v : vec) (B : vec) : vec := fun r =>
  if (q * n <=? r)%nat && (r <? q * n + n)%nat then v (r - q * n)%nat else B r.
Section Rhs.
Variable B : vec.
(** 419-434 *)
Definition first_l : vec := fun i =>
  - when (solar && db 0%nat) (b_Fm (wl 0%nat) i) - when (thermal && dt 0%nat) (b_0m (wl 0%nat) i)
  - when (dl 0%nat) (total n (fun j => B j * - b_Xm (wl 0%nat) i j
      + B (j + n)%nat * (lam_l (ws 0%nat) (wl 0%nat) j * - b_Xp (ws 0%nat) i j + lam (ws 0%nat) j * - b_Xp (wl 0%nat) i j)))
  + top_l i.
(** 440-459 *)
Definition middle_p (i : nat) : vec := fun j => let ii := (i * (n * 2))%nat in
  - when (solar && db i) (b_Fp (wl i) j * b_atran (ws i) + b_Fp (ws i) j * b_atran (wl i)) + when (solar && db (S i)) (b_Fp (wl (S i)) j)
  - when (thermal && dt i) (b_1p (wl i) j) + when (thermal && dt (S i)) (b_0p (wl (S i)) j)
  + total n (fun k =>
      - when (dl i) (B (ii + k)%nat * (lam_l (ws i) (wl i) k * b_Xp (ws i) j k + lam (ws i) k * b_Xp (wl i) j k) + B (ii + k + n)%nat * b_Xm (wl i) j k)
      + when (dl (S i)) (B (ii + k + n * 3)%nat * (lam_l (ws (S i)) (wl (S i)) k * b_Xm (ws (S i)) j k + lam (ws (S i)) k * b_Xm (wl (S i)) j k)
                           + B (ii + k + n * 2)%nat * b_Xp (wl (S i)) j k)).
(** 461-480 *)
Definition middle_m (i : nat) : vec := fun j => let ii := (i * (n * 2))%nat in
  - when (solar && db i) (b_Fm (wl i) j * b_atran (ws i) + b_Fm (ws i) j * b_atran (wl i)) + when (solar && db (S i)) (b_Fm (wl (S i)) j)
  - when (thermal && dt i) (b_1m (wl i) j) + when (thermal && dt (S i)) (b_0m (wl (S i)) j)
  + total n (fun k =>
      - when (dl i) (B (ii + k)%nat * (lam_l (ws i) (wl i) k * - b_Xm (ws i) j k + lam (ws i) k * - b_Xm (wl i) j k) + B (ii + k + n)%nat * - b_Xp (wl i) j k)
      + when (dl (S i)) (B (ii + k + n * 3)%nat * (lam_l (ws (S i)) (wl (S i)) k * - b_Xp (ws (S i)) j k + lam (ws (S i)) k * - b_Xp (wl (S i)) j k)
                           + B (ii + k + n * 2)%nat * - b_Xm (wl (S i)) j k)).
(** 483-548: ii = n_comp - n_quad_v2 *)
Definition last_l : vec := fun j => let ii := (m * (n * 2))%nat in
  when (solar && db m) (- b_Fp (wl m) j * b_atran (ws m) - b_Fp (ws m) j * b_atran (wl m)) - when (thermal && dt m) (b_1p (wl m) j)
  + match surf with
    | None => 0
    | Some Rs => total n (fun k =>
        when (solar && db m) (Rs j k * (b_Fm (wl m) k * b_atran (ws m) + b_Fm (ws m) k * b_atran (wl m)))
        + when (solar && dl (S m)) (Rs_l j k * b_Fm (ws m) k * b_atran (ws m))
        + when (thermal && dt m) (Rs j k * b_1m (wl m) k)
        + when (thermal && dl (S m)) (Rs_l j k * b_1m (ws m) k)) + bot_l j
    end
  + total n (fun k =>
      - when (dl m) (B (ii + k)%nat * (lam_l (ws m) (wl m) k * b_Xp (ws m) j k + lam (ws m) k * b_Xp (wl m) j k) + B (ii + k + n)%nat * b_Xm (wl m) j k)
      + match surf with
        | None => 0
        | Some Rs =>
            let c := total n (fun l => Rs j l * - b_Xm (ws m) l k) in
            let d := total n (fun l => when (dl m) (Rs j l * - b_Xm (wl m) l k) + when (dl (S m)) (Rs_l j l * - b_Xm (ws m) l k)) in
            let e := total n (fun l => when (dl m) (Rs j l * - b_Xp (wl m) l k) + when (dl (S m)) (Rs_l j l * - b_Xp (ws m) l k)) in
            - when (dl m) (B (ii + k)%nat * lam_l (ws m) (wl m) k * - c) - (B (ii + k)%nat * lam (ws m) k * - d + B (ii + k + n)%nat * - e)
        end).
(** 419-548; [old]: the array before *)
Definition rhs_l (old : vec) : vec :=
  let B' := set_at 0 first_l old in
  let B' := fold_left (fun B' i => set_at (2 * i + 2) (middle_m i) (set_at (2 * i + 1) (middle_p i) B')) (seq 0 m) B' in
  set_at (2 * m + 1) last_l B'.
End Rhs.
(** 557-566, with the factors of the matrix: B and B_l *)
Definition solve_bvp_l (top bot old : vec) : outcome (vec * vec) :=
  bind (assemble n m ws surf) (fun a => match gb (n_comp n m) (n_diags n) (n_diags n) a with
    | None => Err 1%Z
    | Some f => let B := f (rhs n m ws surf solar thermal top bot) in Ok (B, f (rhs_l B old))
    end).

(** calc_radiance_levels, 773-870, for one output level: I_p_l, I_m_l *)
Definition level_l (B B_l : vec) (ul : nat) : outcome (vec * vec) :=
  if (S m <? ul)%nat then UB else
  if negb (ul =? S m)%nat then
    let w := ws ul in let w' := wl ul in let iii := (ul * (n * 2))%nat in
    Ok (fun j => total n (fun k => B_l (iii + k)%nat * b_Xp w j k + B_l (iii + k + n)%nat * b_Xm w j k * lam w k
                   + when (dl ul) (B (iii + k)%nat * b_Xp w' j k + B (iii + k + n)%nat * (b_Xm w' j k * lam w k + b_Xm w j k * lam_l w w' k)))
                 + when (solar && db ul) (b_Fp w' j) + when (thermal && dt ul) (b_0p w' j),
        fun j => total n (fun k => B_l (iii + k)%nat * - b_Xm w j k + B_l (iii + k + n)%nat * - b_Xp w j k * lam w k
                   + when (dl ul) (B (iii + k)%nat * - b_Xm w' j k + B (iii + k + n)%nat * (- b_Xp w' j k * lam w k + - b_Xp w j k * lam_l w w' k)))
                 + when (solar && db ul) (b_Fm w' j) + when (thermal && dt ul) (b_0m w' j))
  else
    let w := ws m in let w' := wl m in let iii := (m * (n * 2))%nat in
    Ok (fun j => total n (fun k => B_l (iii + k)%nat * b_Xp w j k * lam w k + B_l (iii + k + n)%nat * b_Xm w j k
                   + when (dl m) (B (iii + k)%nat * (b_Xp w' j k * lam w k + b_Xp w j k * lam_l w w' k) + B (iii + k + n)%nat * b_Xm w' j k))
                 + when (solar && db m) (b_Fp w' j * b_atran w + b_Fp w j * b_atran w') + when (thermal && dt m) (b_1p w' j),
        fun j => total n (fun k => B_l (iii + k)%nat * - b_Xm w j k * lam w k + B_l (iii + k + n)%nat * - b_Xp w j k
                   + when (dl m) (B (iii + k)%nat * (- b_Xm w' j k * lam w k + - b_Xm w j k * lam_l w w' k) + B (iii + k + n)%nat * - b_Xp w' j k))
                 + when (solar && db m) (b_Fm w' j * b_atran w + b_Fm w j * b_atran w') + when (thermal && dt m) (b_1m w' j)).
(** calc_radiance_taus, 1027-1077: with ltau_l[ii][m] read whatever the flag *)
Definition depth_l (B B_l : vec) (ul : nat) (u : R) : outcome (vec * vec) :=
  if (m <? ul)%nat then UB else
  let w := ws ul in let w' := wl ul in let iii := (ul * (n * 2))%nat in
  let u_l := u * b_ltau w' / b_ltau w in
  let lp := fun k => exp (- b_nu w k * (u - 0)) in let lm := fun k => exp (- b_nu w k * (b_ltau w - u)) in
  let ip := fun k => - (b_nu w' k * (u - 0) + b_nu w k * u_l) in let im := fun k => - (b_nu w' k * (b_ltau w - u) + b_nu w k * (b_ltau w' - u_l)) in
  let s := exp (- u * b_as0 w) in let s_l := - (u_l * b_as0 w + u * b_as0 w') * s in
  Ok (fun j => total n (fun k => B_l (iii + k)%nat * b_Xp w j k * lp k + B_l (iii + k + n)%nat * b_Xm w j k * lm k
                 + when (dl ul) (B (iii + k)%nat * (b_Xp w' j k * lp k + b_Xp w j k * ip k * lp k)
                                   + B (iii + k + n)%nat * (b_Xm w' j k * lm k + b_Xm w j k * im k * lm k)))
               + when (solar && db ul) (b_Fp w' j * s + b_Fp w j * s_l),
      fun j => total n (fun k => B_l (iii + k)%nat * - b_Xm w j k * lp k + B_l (iii + k + n)%nat * - b_Xp w j k * lm k
                 + when (dl ul) (B (iii + k)%nat * (- b_Xm w' j k * lp k + - b_Xm w j k * ip k * lp k)
                                   + B (iii + k + n)%nat * (- b_Xp w' j k * lm k + - b_Xp w j k * im k * lm k)))
               + when (solar && db ul) (b_Fm w' j * s + b_Fm w j * s_l)).
End Ops.

(** rtm_eig_bvp, xrtm_eig_bvp.c:428-590: the derivatives computed for one layer, with scale_source_vectors_solar, xrtm_source.c:1068-1081 *)
Definition waves_l_of (n : nat) (solve : nat -> mat -> mat -> mat) (eig : mat -> vec * mat) (dl : bool) (x dx : slab) : waves :=
  {| b_ltau := ltau dx; b_atran := atran dx; b_as0 := as_0 dx;
     b_nu := nu_l n solve eig x dx; b_Xp := X_p_l n solve eig x dx; b_Xm := X_m_l n solve eig x dx;
     b_Fp := vadd (vscale (btran dx) (Fs_p n solve x)) (vscale (btran x) (Fs_p_l n solve dl x dx));
     b_Fm := vadd (vscale (btran dx) (Fs_m n solve x)) (vscale (btran x) (Fs_m_l n solve dl x dx));
     b_0p := F0_p_l n solve dl x dx; b_0m := F0_m_l n solve dl x dx; b_1p := F1_p_l n solve dl x dx; b_1m := F1_m_l n solve dl x dx |}.
(** The derivatives of the radiances at one output level, and at one optical depth *)
Definition bvp_level_l n solve eig gb m xs dxs surf Rs_l dl db dt solar thermal top bot top_l bot_l old ul : outcome (vec * vec) :=
  let ws := fun k => waves_of n solve eig (xs k) in let wl := fun k => waves_l_of n solve eig (dl k) (xs k) (dxs k) in
  bind (solve_bvp_l n gb m ws wl surf Rs_l dl db dt solar thermal top_l bot_l top bot old) (fun b => level_l n m ws wl dl db dt solar thermal (fst b) (snd b) ul).
Definition bvp_depth_l n solve eig gb m xs dxs surf Rs_l dl db dt solar thermal top bot top_l bot_l old ul u : outcome (vec * vec) :=
  let ws := fun k => waves_of n solve eig (xs k) in let wl := fun k => waves_l_of n solve eig (dl k) (xs k) (dxs k) in
  bind (solve_bvp_l n gb m ws wl surf Rs_l dl db dt solar thermal top_l bot_l top bot old) (fun b => depth_l n m ws wl dl db solar (fst b) (snd b) ul u).
