(** The boundary value solver: solve_bvp, calc_radiance_levels and calc_radiance_taus of src/xrtm_eig_bvp_x.c and how rtm_eig_bvp of
    src/xrtm_eig_bvp.c calls them, for all layers of an atmosphere at once.  The eigenvectors and the particular solutions are those of
    EigModel, with its scope: over the reals, scalar mode, the classical particular solution.  Source function integration is off (the
    option SFI), so the additional output directions are streams without weight.  LEGACY_MODE is 1 (xrtm_eig_bvp.c:25) and
    USE_BANDED_SOLVER is defined (xrtm_eig_bvp_x.c:11).

    External to the repository and a parameter here: [gb N kl ku a], dgbtrf and dgbtrs for a matrix of order N in band storage: None
    when info != 0 (the process ends with exit(1), 276-279: [Err 1]), else the solution as a function of the right hand side; the
    contract is in BvpSpec.  Arrays are written and read with a check of the range, outside it the outcome is UB. *)
From Coq Require Import Reals Bool Arith ZArith List.
From Verif Require Import Base DeltaMSpec AddingModel RadianceModel EigModel.
Import ListNotations.
Open Scope R_scope.

(** One layer: the entries i of the arrays ltau, atran, as_0, nu, X_p, X_m, Fs_p, Fs_m, Ft0_p, Ft0_m, Ft1_p, Ft1_m.  Fs1_p is Fs_p, Fs1_m is
    Fs_m, atran2 is atran (xrtm_eig_bvp.c:301-303, 411-413, not greens). *)
Record waves := {
  b_ltau : R; b_atran : R; b_as0 : R;
  b_nu : vec; b_Xp : mat; b_Xm : mat;
  b_Fp : vec; b_Fm : vec;
  b_0p : vec; b_0m : vec; b_1p : vec; b_1m : vec
}.
Definition bind {A B} (x : outcome A) (f : A -> outcome B) : outcome B :=
  match x with Ok a => f a | Err c => Err c | UB => UB end.
(** for (k = 0; k < m; ++k) *)
Fixpoint loop {A} (m : nat) (f : nat -> A -> outcome A) (a : A) : outcome A :=
  match m with O => Ok a | S m' => bind (loop m' f a) (f m') end.

Section Ops.
Variable n : nat.                                     (* n_quad_v *)
Variable gb : nat -> nat -> nat -> mat -> option (vec -> vec).

(* ------------------------------------------------------------------------- *)
(** * The matrix of the boundary conditions, in band storage *)

(** a[jj][ii - jj] = x, in an array of [rows] by [width] *)
Definition put (rows width : nat) (jj ii : nat) (x : R) (a : mat) : outcome mat :=
  if (jj <? rows)%nat && (jj <=? ii)%nat && (ii - jj <? width)%nat
  then Ok (fun p q => if (p =? jj)%nat && (q =? ii - jj)%nat then x else a p q) else UB.
(** A call of insert_matrix_band_storage1_d or (with a diagonal) insert_matrix_band_storage2_d, xrtm_matrix.c:1044-1137 *)
Record call := { c_i : nat; c_j : nat; c_alpha : R; c_diag : option vec; c_mat : mat }.
Definition c_value (c : call) : mat := fun i j =>
  match c_diag c with None => c_alpha c * c_mat c i j | Some d => c_alpha c * d j * c_mat c i j end.
Definition insert (rows width kl ku : nat) (c : call) : mat -> outcome mat :=
  loop n (fun i => loop n (fun j => put rows width (c_j c * n + j) (c_i c * n + (kl + ku + 1) - 1 + i) (c_value c i j))).
Fixpoint run (rows width kl ku : nat) (l : list call) (a : mat) : outcome mat :=
  match l with [] => Ok a | c :: l => bind (insert rows width kl ku c a) (run rows width kl ku l) end.

(** 131-135 *)
Definition lam (w : waves) : vec := fun j => exp (- b_nu w j * b_ltau w).
Definition call1 ii jj a x := {| c_i := ii; c_j := jj; c_alpha := a; c_diag := None; c_mat := x |}.
Definition call2 ii jj a d x := {| c_i := ii; c_j := jj; c_alpha := a; c_diag := Some d; c_mat := x |}.
Section Layers.
Variable m : nat.                                     (* n_layers - 1 *)
Variable ws : nat -> waves.
Variable surf : option mat.                           (* surface ? Rs_qq : absent *)
(** 152-160 *)
Definition first_rows : list call :=
  [call1 0 0 (-1) (b_Xm (ws 0%nat)); call2 0 1 (-1) (lam (ws 0%nat)) (b_Xp (ws 0%nat))].
(** 168-195: ii = 2 i + 1 at the start, jj = 2 i *)
Definition middle_rows (i : nat) : list call :=
  let ii := (2 * i + 1)%nat in let jj := (2 * i)%nat in
  [call2 ii jj 1 (lam (ws i)) (b_Xp (ws i));
   call1 ii (jj + 1) 1 (b_Xm (ws i));
   call1 ii (jj + 2) (-1) (b_Xp (ws (S i)));
   call2 ii (jj + 3) (-1) (lam (ws (S i))) (b_Xm (ws (S i)));
   call2 (ii + 1) jj (-1) (lam (ws i)) (b_Xm (ws i));
   call1 (ii + 1) (jj + 1) (-1) (b_Xp (ws i));
   call1 (ii + 1) (jj + 2) 1 (b_Xm (ws (S i)));
   call2 (ii + 1) (jj + 3) 1 (lam (ws (S i))) (b_Xp (ws (S i)))].
(** 204-227, 245-268 *)
Definition last_a : mat := fun j k =>
  match surf with
  | None => b_Xp (ws m) j k * lam (ws m) k
  | Some Rs => (b_Xp (ws m) j k - total n (fun l => Rs j l * - b_Xm (ws m) l k)) * lam (ws m) k
  end.
Definition last_b : mat := fun j k =>
  match surf with
  | None => b_Xm (ws m) j k
  | Some Rs => b_Xm (ws m) j k - total n (fun l => Rs j l * - b_Xp (ws m) l k)
  end.
Definition last_rows : list call := let ii := (m * 2)%nat in [call1 (ii + 1) ii 1 last_a; call1 (ii + 1) (ii + 1) 1 last_b].
Definition calls : list call := first_rows ++ flat_map middle_rows (seq 0 m) ++ last_rows.
(** 93-98 *)
Definition n_diags : nat := (3 * n - 1)%nat.
Definition m_comp : nat := (3 * n_diags + 1)%nat.
Definition n_comp : nat := (2 * n * S m)%nat.
(** 146-268 *)
Definition assemble : outcome mat := run n_comp m_comp n_diags n_diags calls zmat.

(* ------------------------------------------------------------------------- *)
(** * The right hand side *)

(** for (j = 0; j < n_quad_v; ++j) B[q n_quad_v + j] += v[j]; where the code counts ii on from n_quad_v, ii is q n_quad_v + j *)
Definition add_at (q : nat) (v : vec) (B : vec) : vec := fun r =>
  if (q * n <=? r)%nat && (r <? q * n + n)%nat then B r + v (r - q * n)%nat else B r.
Variables (solar thermal : bool).
Variables (top bot : vec).                            (* I1_m, In_p *)
(** 293-299 *)
Definition rhs_light : vec := add_at (2 * m + 1) bot (add_at 0 top zvec).
(** 305-336 *)
Definition rhs_solar (B : vec) : vec :=
  let B := add_at 0 (fun i => - b_Fm (ws 0%nat) i) B in
  let B := fold_left (fun B i =>
    let B := add_at (2 * i + 1) (fun j => b_Fp (ws (S i)) j - b_Fp (ws i) j * b_atran (ws i)) B in
    add_at (2 * i + 2) (fun j => b_Fm (ws (S i)) j - b_Fm (ws i) j * b_atran (ws i)) B) (seq 0 m) B in
  add_at (2 * m + 1) (fun j => - b_Fp (ws m) j * b_atran (ws m) +
    match surf with None => 0 | Some Rs => total n (fun k => Rs j k * b_Fm (ws m) k) * b_atran (ws m) end) B.
(** 342-373 *)
Definition rhs_thermal (B : vec) : vec :=
  let B := add_at 0 (fun i => - b_0m (ws 0%nat) i) B in
  let B := fold_left (fun B i =>
    let B := add_at (2 * i + 1) (fun j => b_0p (ws (S i)) j - b_1p (ws i) j) B in
    add_at (2 * i + 2) (fun j => b_0m (ws (S i)) j - b_1m (ws i) j) B) (seq 0 m) B in
  add_at (2 * m + 1) (fun j => - b_1p (ws m) j +
    match surf with None => 0 | Some Rs => total n (fun k => Rs j k * b_1m (ws m) k) end) B.
Definition rhs : vec :=
  let B := rhs_light in
  let B := if solar then rhs_solar B else B in
  if thermal then rhs_thermal B else B.
(** 274-279, 380-388 *)
Definition solve_bvp : outcome vec :=
  bind assemble (fun a => match gb n_comp n_diags n_diags a with None => Err 1%Z | Some f => Ok (f rhs) end).

(* ------------------------------------------------------------------------- *)
(** * The radiances *)

(** calc_radiance_levels, 653-748, for one output level: I_p, I_m *)
Definition level (B : vec) (ul : nat) : outcome (vec * vec) :=
  if (S m <? ul)%nat then UB else
  if negb (ul =? S m)%nat then
    let w := ws ul in let iii := (ul * (n * 2))%nat in
    Ok (fun j => total n (fun k => B (iii + k)%nat * b_Xp w j k + B (iii + k + n)%nat * b_Xm w j k * lam w k)
                 + (if solar then b_Fp w j else 0) + (if thermal then b_0p w j else 0),
        fun j => total n (fun k => B (iii + k)%nat * - b_Xm w j k + B (iii + k + n)%nat * - b_Xp w j k * lam w k)
                 + (if solar then b_Fm w j else 0) + (if thermal then b_0m w j else 0))
  else
    let w := ws m in let iii := (m * (n * 2))%nat in
    Ok (fun j => total n (fun k => B (iii + k)%nat * b_Xp w j k * lam w k + B (iii + k + n)%nat * b_Xm w j k)
                 + (if solar then b_Fp w j * b_atran w else 0) + (if thermal then b_1p w j else 0),
        fun j => total n (fun k => B (iii + k)%nat * - b_Xm w j k * lam w k + B (iii + k + n)%nat * - b_Xp w j k)
                 + (if solar then b_Fm w j * b_atran w else 0) + (if thermal then b_1m w j else 0)).
(** calc_radiance_taus, 945-1003, for one output level [ul] at the depth [u] below its top *)
Definition depth (B : vec) (ul : nat) (u : R) : outcome (vec * vec) :=
  if (m <? ul)%nat then UB else
  let w := ws ul in let iii := (ul * (n * 2))%nat in
  let lp := fun k => exp (- b_nu w k * (u - 0)) in let lm := fun k => exp (- b_nu w k * (b_ltau w - u)) in
  Ok (fun j => total n (fun k => B (iii + k)%nat * b_Xp w j k * lp k + B (iii + k + n)%nat * b_Xm w j k * lm k)
               + (if solar then b_Fp w j * exp (- u * b_as0 w) else 0),
      fun j => total n (fun k => B (iii + k)%nat * - b_Xm w j k * lp k + B (iii + k + n)%nat * - b_Xp w j k * lm k)
               + (if solar then b_Fm w j * exp (- u * b_as0 w) else 0)).
End Layers.
End Ops.

(** rtm_eig_bvp, xrtm_eig_bvp.c:428-590: what is computed for one layer.  scale_source_vectors_solar multiplies by btran.  With output at
    optical depths build_thermal_source_coefficients and build_source_vectors_thermal are called instead of
    build_source_vectors_thermal2, which calls them. *)
Definition waves_of (n : nat) (solve : nat -> mat -> mat -> mat) (eig : mat -> vec * mat) (x : slab) : waves :=
  {| b_ltau := ltau x; b_atran := atran x; b_as0 := as_0 x;
     b_nu := nu n eig x; b_Xp := X_p n eig x; b_Xm := X_m n eig x;
     b_Fp := vscale (btran x) (Fs_p n solve x); b_Fm := vscale (btran x) (Fs_m n solve x);
     b_0p := F0_p n solve x; b_0m := F0_m n solve x; b_1p := F1_p n solve x; b_1m := F1_m n solve x |}.
(** 632-688: the radiances at one output level *)
Definition bvp_level n solve eig gb m xs surf solar thermal top bot ul : outcome (vec * vec) :=
  let ws := fun k => waves_of n solve eig (xs k) in
  bind (solve_bvp n gb m ws surf solar thermal top bot) (fun B => level n m ws solar thermal B ul).
Definition bvp_depth n solve eig gb m xs surf solar thermal top bot ul u : outcome (vec * vec) :=
  let ws := fun k => waves_of n solve eig (xs k) in
  bind (solve_bvp n gb m ws surf solar thermal top bot) (fun B => depth n m ws solar B ul u).
