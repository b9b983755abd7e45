(** The derivatives of the eigenvalue solver, same scope as EigModel.  A [slab] [dx] holds the entries [i] of omega_l, ltau_l, as_0_l, ...;
    dl, db, dt, ds: derivs_layers[i], derivs_beam[i], derivs_thermal[i], derivs_sources[i].  Arrays that are written under one flag and
    read only under the same flag are given without it. *)
From Coq Require Import Reals Bool Arith List.
From Verif Require Import Base DeltaMSpec AddingModel RadianceModel EigModel.
Open Scope R_scope.

Section Ops.
Variable n : nat.
Variable solve : nat -> mat -> mat -> mat.
Variable eig : mat -> vec * mat.
Notation "a ** b" := (mmul n a b) (at level 40, left associativity).
Notation "a +++ b" := (madd a b) (at level 50, left associativity).
Notation "a --- b" := (less a b) (at level 50, left associativity).
Notation "a *v v" := (mv n a v) (at level 40, left associativity).
Notation "u +v v" := (vadd u v) (at level 50, left associativity).
Notation "u -v v" := (vless u v) (at level 50, left associativity).

(* ------------------------------------------------------------------------- *)
(** * Eigenvalues and eigenvectors: eigen_derivatives_real, xrtm_eig_util.c:245-295 *)

(** DBL_EPSILON *)
Definition dbl_epsilon : R := / 4503599627370496.
(** is_trivial_eigenvector, 39-54 *)
Definition trivial (x : slab) (k : nat) : bool :=
  if Nat.eqb n 1 then false
  else Nat.eqb (length (filter (fun j => if Rlt_dec dbl_epsilon (Rabs (evecs n eig x j k)) then true else false) (seq 0 n))) 1.
(** 253-267: a matrix of order n + 1 *)
Definition bordered (x : slab) (k : nat) : mat := fun i j =>
  if Nat.eqb i n then match j with O => 0 | S j' => evecs n eig x j' k end
  else match j with
       | O => sqrt (evals n eig x k) * 2 * evecs n eig x i k
       | S j' => - gam n x i j' + (if Nat.eqb i j' then evals n eig x k else 0)
       end.
(** 274-285 *)
Definition eig_B (x dx : slab) (k : nat) : vec := fun i =>
  if Nat.eqb i n then 0 else (gam_l n x dx *v (fun j => evecs n eig x j k)) i.
Definition eig_z (x dx : slab) (k : nat) : vec := csolve (solve (S n)) (bordered x k) (eig_B x dx k).
(** 287-293; zero_eigen_derivs, 93-110; eig_1n_gen_real, 339-347; nu_l: eig_1n_to_2n_real, 691-692 *)
Definition nu_l (x dx : slab) : vec := fun k => if trivial x k then 0 else eig_z x dx k 0%nat.
Definition evecs_l (x dx : slab) : mat := fun i k => if trivial x k then 0 else eig_z x dx k (S i).
(** eig_1n_to_2n_real, 694-711 *)
Definition w2n (x dx : slab) : mat :=
  mul_dinv (t_plus_r_l x dx ** evecs n eig x +++ t_plus_r x ** evecs_l x dx --- mul_diag (w1n n eig x) (nu_l x dx)) (nu n eig x).
Definition X_p_l (x dx : slab) : mat := scaled (/ 2) (evecs_l x dx +++ w2n x dx).
Definition X_m_l (x dx : slab) : mat := scaled (/ 2) (evecs_l x dx --- w2n x dx).

(* ------------------------------------------------------------------------- *)
(** * Global reflection and transmission: calc_global_r_and_t, xrtm_eig_rts_x.c:194-310 *)
Definition lambda_l (x dx : slab) : vec := fun k =>                                                   (* 203-204 *)
  - (nu_l x dx k * ltau x + nu n eig x k * ltau dx) * lambda n eig x k.
Definition gf (x dx : slab) : mat := mul_diag (X_p_l x dx) (lambda n eig x) +++ mul_diag (X_p n eig x) (lambda_l x dx).   (* 210-213 *)
Definition gg (x dx : slab) : mat := solve n (X_m n eig x) (gf x dx --- gb n solve eig x ** X_m_l x dx).                 (* 217-219 *)
Definition gh (x dx : slab) : mat := X_m_l x dx --- gg x dx ** ga n eig x --- gb n solve eig x ** gf x dx.               (* 221-225 *)
Definition gp (x dx : slab) : mat := solve n (gc n solve eig x) (X_p_l x dx --- gd n solve eig x ** gh x dx).            (* 229-231 *)
Definition gq (x dx : slab) : mat := solve n (gc n solve eig x)                                                          (* 233-245 *)
  (mul_diag (X_m_l x dx) (lambda n eig x) +++ mul_diag (X_m n eig x) (lambda_l x dx) --- ge n solve eig x ** gh x dx).
Definition glob_R_l (x dx : slab) : mat := gq x dx ** gb n solve eig x +++ ge n solve eig x ** gg x dx --- gp x dx.      (* 248-255 *)
Definition glob_T_l (x dx : slab) : mat := gq x dx --- gp x dx ** gb n solve eig x --- gd n solve eig x ** gg x dx.      (* 264-268 *)

(* ------------------------------------------------------------------------- *)
(** * The source of the beam: build_source_vectors_solar_classic_1n, xrtm_source.c:155-237 *)
Definition beam_v_l (x dx : slab) (Q Q_l : vec) : vec := fun j =>                                     (* 167-172 *)
  (flux0 x / (4 * PI) * omega dx * Q j + flux0 x / (4 * PI) * omega x * Q_l j) / qx x j.
Definition beam_d_l (x dx : slab) : vec := beam_v_l x dx (Q_pm x) (Q_pm dx) +v beam_v_l x dx (Q_mm x) (Q_mm dx).  (* 176 *)
Definition beam_e_l (x dx : slab) : vec := beam_v_l x dx (Q_pm x) (Q_pm dx) -v beam_v_l x dx (Q_mm x) (Q_mm dx).  (* 177 *)
Definition beam_p_l (dl : bool) (x dx : slab) : vec := csolve (solve n) (beam_f n x)
  (if dl then vscale (2 * as_0 x * as_0 dx) (beam_p n solve x) -v gam_l n x dx *v beam_p n solve x     (* 179-195 *)
              -v t_minus_r_l x dx *v beam_e x -v t_minus_r x *v beam_e_l x dx -v vscale (as_0 dx) (beam_d x) -v vscale (as_0 x) (beam_d_l x dx)
   else vscale (2 * as_0 x * as_0 dx) (beam_p n solve x) -v vscale (as_0 dx) (beam_d x)).              (* 214-218 *)
Definition beam_h_l (dl : bool) (x dx : slab) : vec :=
  if dl then t_plus_r_l x dx *v beam_p n solve x +v t_plus_r x *v beam_p_l dl x dx +v beam_e_l x dx     (* 197-200 *)
  else t_plus_r x *v beam_p_l dl x dx.                                                                 (* 220 *)
Definition still (dl : bool) (dx : slab) : bool := negb dl && (if Req_EM_T (as_0 dx) 0 then true else false).   (* 233 *)
Definition Fs_p_l (dl : bool) (x dx : slab) : vec :=                                                   (* 202-206, 222-226, 234 *)
  if still dl dx then zvec
  else vscale (/ 2) (vscale (- as_0 dx / (as_0 x * as_0 x)) (beam_h n solve x) +v vscale (1 / as_0 x) (beam_h_l dl x dx) +v beam_p_l dl x dx).
Definition Fs_m_l (dl : bool) (x dx : slab) : vec := if still dl dx then zvec else Fs_p_l dl x dx -v beam_p_l dl x dx.   (* 208, 228, 235 *)
(** build_global_source_solar2, 874-965 *)
Definition beam_A (dl : bool) (x dx : slab) : vec := vscale (atran x) (Fs_p_l dl x dx) +v vscale (atran dx) (Fs_p n solve x).   (* 880-882, 932-934 *)
Definition S_p_l (dl : bool) (x dx : slab) : vec :=
  if dl then Fs_p_l dl x dx -v vscale (atran x) (glob_T_l x dx *v Fs_p n solve x) -v glob_T n solve eig x *v beam_A dl x dx   (* 888-902 *)
             -v glob_R_l x dx *v Fs_m n solve x -v glob_R n solve eig x *v Fs_m_l dl x dx
  else if Req_EM_T (atran dx) 0 then zvec                                                              (* 962 *)
  else Fs_p_l dl x dx -v glob_T n solve eig x *v beam_A dl x dx -v glob_R n solve eig x *v Fs_m_l dl x dx.   (* 939-943 *)
Definition S_m_l (dl : bool) (x dx : slab) : vec :=
  if dl then vscale (atran x) (Fs_m_l dl x dx) +v vscale (atran dx) (Fs_m n solve x) -v glob_T_l x dx *v Fs_m n solve x   (* 905-927 *)
             -v glob_T n solve eig x *v Fs_m_l dl x dx -v vscale (atran x) (glob_R_l x dx *v Fs_p n solve x) -v glob_R n solve eig x *v beam_A dl x dx
  else if Req_EM_T (atran dx) 0 then zvec                                                              (* 963 *)
  else vscale (atran x) (Fs_m_l dl x dx) +v vscale (atran dx) (Fs_m n solve x) -v glob_T n solve eig x *v Fs_m_l dl x dx   (* 946-958 *)
       -v glob_R n solve eig x *v beam_A dl x dx.

(* ------------------------------------------------------------------------- *)
(** * The source of thermal emission: build_thermal_source_coefficients, xrtm_source.c:515-644 *)
Definition slope_l (dl : bool) (x dx : slab) : R :=                                                    (* 518, 581 *)
  if dl then (planck1 dx - planck0 dx - slope x * ltau dx) / ltau x else (planck1 dx - planck0 dx) / ltau x.
Definition ther_w_l (x dx : slab) : mat := wide n (qx x) (local_t_l x dx) (local_r_l x dx).            (* 520-531 *)
Definition ther_a1_l (dl : bool) (x dx : slab) : vec := csolve (solve (n + n)%nat) (ther_w n x)
  (if dl then fun j => - omega dx * slope x + (1 - omega x) * slope_l dl x dx - mv (n + n) (ther_w_l x dx) (ther_a1 n solve x) j   (* 533-541 *)
   else fun _ => (1 - omega x) * slope_l dl x dx).                                                     (* 598-606 *)
Definition ther_a0_l (dl : bool) (x dx : slab) : vec := csolve (solve (n + n)%nat) (ther_w n x)
  (if dl then fun j => - omega dx * planck0 x + (1 - omega x) * planck0 dx - mv (n + n) (ther_w_l x dx) (ther_a0 n solve x) j      (* 550-568 *)
                       + signed n (qx x) (ther_a1_l dl x dx) j
   else fun j => (1 - omega x) * planck0 dx + signed n (qx x) (ther_a1_l dl x dx) j).                  (* 615-634 *)
(** build_source_vectors_thermal, 700-752 *)
Definition F0_p_l (dl : bool) (x dx : slab) : vec := upper (ther_a0_l dl x dx).
Definition F0_m_l (dl : bool) (x dx : slab) : vec := lower n (ther_a0_l dl x dx).
Definition F1_p_l (dl : bool) (x dx : slab) : vec :=
  let v := upper (ther_a0_l dl x dx) +v vscale (ltau x) (upper (ther_a1_l dl x dx)) in
  if dl then v +v vscale (ltau dx) (upper (ther_a1 n solve x)) else v.
Definition F1_m_l (dl : bool) (x dx : slab) : vec :=
  let v := lower n (ther_a0_l dl x dx) +v vscale (ltau x) (lower n (ther_a1_l dl x dx)) in
  if dl then v +v vscale (ltau dx) (lower n (ther_a1 n solve x)) else v.
(** build_global_source_thermal, 1008-1040 *)
Definition Sl_p_l (dl : bool) (x dx : slab) : vec :=
  if dl then F0_p_l dl x dx -v glob_T_l x dx *v F1_p n solve x -v glob_T n solve eig x *v F1_p_l dl x dx
             -v glob_R_l x dx *v F0_m n solve x -v glob_R n solve eig x *v F0_m_l dl x dx
  else F0_p_l dl x dx -v glob_T n solve eig x *v F1_p_l dl x dx -v glob_R n solve eig x *v F0_m_l dl x dx.
Definition Sl_m_l (dl : bool) (x dx : slab) : vec :=
  if dl then F1_m_l dl x dx -v glob_R_l x dx *v F1_p n solve x -v glob_R n solve eig x *v F1_p_l dl x dx
             -v glob_T_l x dx *v F0_m n solve x -v glob_T n solve eig x *v F0_m_l dl x dx
  else F1_m_l dl x dx -v glob_R n solve eig x *v F1_p_l dl x dx -v glob_T n solve eig x *v F0_m_l dl x dx.

(* ------------------------------------------------------------------------- *)
(** * The operators of the layer *)

(** scale_add_source_vectors, 1116-1135, with scale_source_vectors_solar, 1068-1081; [old]: the array before *)
Definition scale_add_l (solar thermal db dt ds : bool) (b b_l : R) (s s_l l_l old : vec) : vec :=
  let f := if ds then zvec else old in
  let f := if solar && db then vscale b_l s +v vscale b s_l else f in
  if thermal && dt then f +v l_l else f.
(** [old]: the arrays before the call *)
Definition eig_layer_l (solar thermal dl db dt ds : bool) (x dx : slab) (old : layer) : layer :=
  {| Rm := if dl then glob_R_l x dx else Rm old; Tm := if dl then glob_T_l x dx else Tm old;
     Sm := scale_add_l solar thermal db dt ds (btran x) (btran dx) (S_m n solve eig x) (S_m_l dl x dx) (Sl_m_l dl x dx) (Sm old);
     Rp := if dl then glob_R_l x dx else Rp old; Tp := if dl then glob_T_l x dx else Tp old;
     Sp := scale_add_l solar thermal db dt ds (btran x) (btran dx) (S_p n solve eig x) (S_p_l dl x dx) (Sl_p_l dl x dx) (Sp old) |}.
(** no_scatter_r_t_s, xrtm_utility.c:1427-1450 *)
Definition dull_T_l (x dx : slab) : mat := fun i j => if Nat.eqb i j then - ltau dx / qx x i * dull_T x i i else 0.
Definition dull_layer_l (solar thermal dl db dt ds : bool) (x dx : slab) (old : layer) : result layer :=
  if thermal then Exits
  else Done {| Rm := if dl then zmat else Rm old; Tm := if dl then dull_T_l x dx else Tm old;
               Sm := scale_add_l solar false db dt ds (btran x) (btran dx) zvec zvec zvec (Sm old);
               Rp := if dl then zmat else Rp old; Tp := if dl then dull_T_l x dx else Tp old;
               Sp := scale_add_l solar false db dt ds (btran x) (btran dx) zvec zvec zvec (Sp old) |}.
Definition layer_of_l (dull solar thermal dl db dt ds : bool) (x dx : slab) (old : layer) : result layer :=
  if dull || (if Req_EM_T (omega x) 0 then true else false) then dull_layer_l solar thermal dl db dt ds x dx old
  else Done (eig_layer_l solar thermal dl db dt ds x dx old).
End Ops.
