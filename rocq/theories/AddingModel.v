(** Adding of layers, src/xrtm_adding.c: layer_copy_all_l, layer_copy_ref_l, layer_add_ref, layer_add_all and the
    linearised routines they call, and the loops over the layers in src/xrtm_model.c that use them.
    Over the reals: rounding is not modelled.

    The products and sums of matrices (dmat_mul, dm_v_mul, ...) are external to the repository and modelled by their
    meaning.  The pair dmat_getrf / dmat_getrs is a parameter [solve]: after the factorisation of the transpose of [m],
    dmat_getrs replaces x by [solve m x]; AddingSpec states the contract.  Work arrays are fresh and are not visible
    outside, so they are local definitions; the arguments are memory slots, because the callers pass the same arrays as
    input and output. *)
From Coq Require Import Reals Bool Arith ZArith.
From Verif Require Import Base DerivsModel DeltaMSpec.
Open Scope R_scope.

Definition mat := nat -> nat -> R.
Definition vec := nat -> R.

(** The names of the arguments: the operators of the layer between levels x and y seen from x. *)
Inductive side := U12 | U21 | U23 | U32 | U13 | U31.
Definition side_eqb (x y : side) : bool :=
  match x, y with
  | U12, U12 | U21, U21 | U23, U23 | U32, U32 | U13, U13 | U31, U31 => true
  | _, _ => false
  end.
(** The arrays R.., T.., S.. of one call; for the derivatives, the entries [i] of R.._l, T.._l, S.._l. *)
Record lay := { mR : side -> mat; mT : side -> mat; vS : side -> vec }.

Section Ops.
Variable n : nat.                            (* order of the matrices *)
Variable solve : mat -> mat -> mat.          (* dmat_getrf of the transpose, then dmat_getrs *)
(** Where each argument lives.  [U13] at the place of [U12] means that the caller passes the same array for both. *)
Variable at_ : side -> side.

(** dmat_mul, dmat_add, dm_v_mul, dvec_add, dvec_scale; dmat_i_sub *)
Definition mmul (a b : mat) : mat := fun i j => total n (fun k => a i k * b k j).
Definition madd (a b : mat) : mat := fun i j => a i j + b i j.
Definition mv (a : mat) (v : vec) : vec := fun i => total n (fun k => a i k * v k).
Definition vadd (u v : vec) : vec := fun i => u i + v i.
Definition vscale (t : R) (v : vec) : vec := fun i => t * v i.
Definition i_sub (a : mat) : mat := fun i j => (if Nat.eqb i j then 1 else 0) - a i j.

Definition gR (s : lay) (x : side) : mat := mR s (at_ x).
Definition gT (s : lay) (x : side) : mat := mT s (at_ x).
Definition gS (s : lay) (x : side) : vec := vS s (at_ x).
Definition put {A} (f : side -> A) (x : side) (v : A) : side -> A := fun y => if side_eqb y x then v else f y.
Definition wR (s : lay) (x : side) (a : mat) : lay := {| mR := put (mR s) (at_ x) a; mT := mT s; vS := vS s |}.
Definition wT (s : lay) (x : side) (a : mat) : lay := {| mR := mR s; mT := put (mT s) (at_ x) a; vS := vS s |}.
Definition wS (s : lay) (x : side) (v : vec) : lay := {| mR := mR s; mT := mT s; vS := put (vS s) (at_ x) v |}.

(* ------------------------------------------------------------------------- *)
(** * Linearised routines of layer_add_ref, xrtm_adding.c:144-483
    [m] is the factored matrix; A, B, C as in the callers; t, t_l: atran, atran_l.  The slot arguments are the
    derivatives. *)

(** 144-149 *)
Definition ref_u_s (A R23 : mat) (t : R) (d : lay) : lay := wS d U31 (mv A (vscale t (gS d U32))).
(** 153-161 *)
Definition ref_s_u (A R23 : mat) (t : R) (d : lay) : lay :=
  let v1 := mv R23 (gS d U12) in wS d U31 (vadd (gS d U21) (mv A v1)).
(** 165-175 *)
Definition ref_s_s (A R23 : mat) (t : R) (d : lay) : lay :=
  let v1 := vadd (vscale t (gS d U32)) (mv R23 (gS d U12)) in wS d U31 (vadd (gS d U21) (mv A v1)).
(** 179-198 *)
Definition ref_u_l (m A B : mat) (C : vec) (T12 R21 R23 : mat) (d : lay) : lay :=
  let D := mmul A (gR d U23) in
  let E := solve m (mmul D R21) in
  wR d U13 (madd (mmul E B) (mmul D T12)).
(** 202-223 *)
Definition ref_l_u (m A B : mat) (C : vec) (R23 : mat) (d : lay) : lay :=
  let D := mmul A R23 in
  let E := solve m (madd (gT d U21) (mmul D (gR d U21))) in
  let w1 := madd (mmul E B) (mmul D (gT d U12)) in
  wR d U13 (madd (gR d U12) w1).
(** 227-251 *)
Definition ref_l_l (m A B : mat) (C : vec) (T12 R21 R23 : mat) (d : lay) : lay :=
  let w1 := madd (mmul (gR d U23) R21) (mmul R23 (gR d U21)) in
  let D := solve m (madd (gT d U21) (mmul A w1)) in
  let w1 := madd (mmul (gR d U23) T12) (mmul R23 (gT d U12)) in
  let w1 := madd (gR d U12) (mmul A w1) in
  wR d U13 (madd w1 (mmul D B)).
(** 255-284 *)
Definition ref_u_b (m A B : mat) (C : vec) (T12 : mat) (S12 : vec) (R21 R23 : mat) (t : R) (d : lay) : lay :=
  let D := mmul A (gR d U23) in
  let E := solve m (mmul D R21) in
  let v1 := vadd (vscale t (gS d U32)) (mv (gR d U23) S12) in
  let v2 := mv A v1 in
  let d := wS d U31 (vadd (mv E C) v2) in
  wR d U13 (madd (mmul E B) (mmul D T12)).
(** 288-321 *)
Definition ref_b_u (m A B : mat) (C : vec) (R23 : mat) (S32 : vec) (t t_l : R) (d : lay) : lay :=
  let D := mmul A R23 in
  let E := solve m (madd (gT d U21) (mmul D (gR d U21))) in
  let v1 := vadd (vscale t_l S32) (mv R23 (gS d U12)) in
  let v1 := vadd (gS d U21) (mv A v1) in
  let d := wS d U31 (vadd v1 (mv E C)) in
  let w1 := madd (mmul E B) (mmul D (gT d U12)) in
  wR d U13 (madd (gR d U12) w1).
(** 325-358 *)
Definition ref_s_b (m A B : mat) (C : vec) (T12 : mat) (S12 : vec) (R21 R23 : mat) (t : R) (d : lay) : lay :=
  let D := mmul A (gR d U23) in
  let E := solve m (mmul D R21) in
  let v1 := vadd (vscale t (gS d U32)) (mv (gR d U23) S12) in
  let v1 := vadd v1 (mv R23 (gS d U12)) in
  let v1 := vadd (gS d U21) (mv A v1) in
  let d := wS d U31 (vadd v1 (mv E C)) in
  wR d U13 (madd (mmul E B) (mmul D T12)).
(** 362-398 *)
Definition ref_b_s (m A B : mat) (C : vec) (R23 : mat) (S32 : vec) (t t_l : R) (d : lay) : lay :=
  let D := mmul A R23 in
  let E := solve m (madd (gT d U21) (mmul D (gR d U21))) in
  let v1 := vadd (vscale t (gS d U32)) (vscale t_l S32) in
  let v1 := vadd v1 (mv R23 (gS d U12)) in
  let v1 := vadd (gS d U21) (mv A v1) in
  let d := wS d U31 (vadd v1 (mv E C)) in
  let w1 := madd (mmul E B) (mmul D (gT d U12)) in
  wR d U13 (madd (gR d U12) w1).
(** 401-439 *)
Definition ref_b_l (m A B : mat) (C : vec) (T12 : mat) (S12 : vec) (R21 R23 : mat) (S32 : vec) (t t_l : R) (d : lay) : lay :=
  let w1 := madd (mmul (gR d U23) R21) (mmul R23 (gR d U21)) in
  let D := solve m (madd (gT d U21) (mmul A w1)) in
  let v1 := vadd (vscale t_l S32) (mv (gR d U23) S12) in
  let v1 := vadd v1 (mv R23 (gS d U12)) in
  let v1 := vadd (gS d U21) (mv A v1) in
  let d := wS d U31 (vadd v1 (mv D C)) in
  let w1 := madd (mmul (gR d U23) T12) (mmul R23 (gT d U12)) in
  let w1 := madd (gR d U12) (mmul A w1) in
  wR d U13 (madd w1 (mmul D B)).
(** 443-483 *)
Definition ref_b_b (m A B : mat) (C : vec) (T12 : mat) (S12 : vec) (R21 R23 : mat) (S32 : vec) (t t_l : R) (d : lay) : lay :=
  let w1 := madd (mmul (gR d U23) R21) (mmul R23 (gR d U21)) in
  let D := solve m (madd (gT d U21) (mmul A w1)) in
  let v1 := vadd (vscale t (gS d U32)) (vscale t_l S32) in
  let v1 := vadd v1 (mv (gR d U23) S12) in
  let v1 := vadd v1 (mv R23 (gS d U12)) in
  let v1 := vadd (gS d U21) (mv A v1) in
  let d := wS d U31 (vadd v1 (mv D C)) in
  let w1 := madd (mmul (gR d U23) T12) (mmul R23 (gT d U12)) in
  let w1 := madd (gR d U12) (mmul A w1) in
  wR d U13 (madd w1 (mmul D B)).

Definition is (code c : Z) : bool := Z.eqb code c.
(** the tests of 570-590: code [c], or with [flag] its mirror image [c'] *)
Definition sel (flag : bool) (code c c' : Z) : bool := (negb flag && is code c) || (flag && is code c').
(** exit(1) *)
Definition exits {A} : outcome A := Err 1.

(** layer_add_ref, 490-645, one derivative of the loop 569-625 *)
Definition ref_deriv (flag : bool) (code : Z) (m A B : mat) (C : vec) (v : lay) (t t_l : R) (d : lay) : outcome lay :=
  let T12 := gT v U12 in let S12 := gS v U12 in let R21 := gR v U21 in let R23 := gR v U23 in let S32 := gS v U32 in
  if is code ADDING_U_U then Ok d
  else if sel flag code ADDING_U_S ADDING_S_U then Ok (ref_u_s A R23 t d)
  else if sel flag code ADDING_S_U ADDING_U_S then Ok (ref_s_u A R23 t d)
  else if is code ADDING_S_S then Ok (ref_s_s A R23 t d)
  else if sel flag code ADDING_U_L ADDING_L_U then Ok (ref_u_l m A B C T12 R21 R23 d)
  else if sel flag code ADDING_L_U ADDING_U_L then Ok (ref_l_u m A B C R23 d)
  else if is code ADDING_L_L then Ok (ref_l_l m A B C T12 R21 R23 d)
  else if sel flag code ADDING_U_B ADDING_B_U then Ok (ref_u_b m A B C T12 S12 R21 R23 t d)
  else if sel flag code ADDING_B_U ADDING_U_B then Ok (ref_b_u m A B C R23 S32 t t_l d)
  else if sel flag code ADDING_S_B ADDING_B_S then Ok (ref_s_b m A B C T12 S12 R21 R23 t d)
  else if sel flag code ADDING_B_S ADDING_S_B then Ok (ref_b_s m A B C R23 S32 t t_l d)
  else if is code ADDING_L_B then exits
  else if is code ADDING_B_L then Ok (ref_b_l m A B C T12 S12 R21 R23 S32 t t_l d)
  else if is code ADDING_B_B then Ok (ref_b_b m A B C T12 S12 R21 R23 S32 t t_l d)
  else Ok d.
(** the loops over the derivatives *)
Definition each (nd : nat) (f : nat -> lay -> outcome lay) (d : nat -> lay) : outcome (nat -> lay) :=
  loop nd (fun i s =>
    match s with
    | Ok d => match f i (d i) with Ok x => Ok (fun k => if Nat.eqb k i then x else d k) | Err e => Err e | UB => UB end
    | Err e => Err e
    | UB => UB
    end) (Ok d).
(** layer_add_ref, 490-645 *)
Definition layer_add_ref (nd : nat) (t : R) (t_l : nat -> R) (derivs : nat -> Z) (flag flag2 : bool)
    (v : lay) (d : nat -> lay) : outcome (lay * (nat -> lay)) :=
  let m := i_sub (mmul (gR v U23) (gR v U21)) in
  let A := solve m (gT v U21) in
  let B := mmul (gR v U23) (gT v U12) in
  let C := vadd (vscale t (gS v U32)) (mv (gR v U23) (gS v U12)) in
  match each nd (fun i => ref_deriv flag (derivs i) m A B C v t (t_l i)) d with
  | Ok d =>
      let v := if flag2 then
                 let v := wS v U31 (vadd (gS v U21) (mv A C)) in
                 wR v U13 (madd (gR v U12) (mmul A B))
               else v in
      Ok (v, d)
  | Err e => Err e
  | UB => UB
  end.

(* ------------------------------------------------------------------------- *)
(** * Linearised routines of layer_add_all, 894-1235; here the callers also swap the roles of the layers, so the slots
    are arguments, in the order of the source. *)

(** 894-899 *)
Definition u_s_up (A R23 : mat) (s23 s32 s31 : side) (t : R) (d : lay) : lay := wS d s31 (mv A (vscale t (gS d s32))).
(** 903-911 *)
Definition s_u_up (A R23 : mat) (s12 s21 s31 : side) (t : R) (d : lay) : lay :=
  let v1 := mv R23 (gS d s12) in wS d s31 (vadd (gS d s21) (mv A v1)).
(** 915-925 *)
Definition s_s_up (A R23 : mat) (s12 s21 s23 s32 s31 : side) (t : R) (d : lay) : lay :=
  let v1 := vadd (vscale t (gS d s32)) (mv R23 (gS d s12)) in wS d s31 (vadd (gS d s21) (mv A v1)).
(** 929-953 *)
Definition u_l_up (m A B : mat) (C : vec) (T12 R21 T32 : mat) (r23 t32 r13 t31 : side) (d : lay) : lay :=
  let D := mmul A (gR d r23) in
  let E := solve m (mmul D R21) in
  let d := wR d r13 (madd (mmul E B) (mmul D T12)) in
  wT d t31 (madd (mmul E T32) (mmul A (gT d t32))).
(** 957-984 *)
Definition l_u_up (m A B : mat) (C : vec) (D R23 T32 : mat) (r12 t12 r21 t21 r13 t31 : side) (d : lay) : lay :=
  let E := solve m (madd (gT d t21) (mmul D (gR d r21))) in
  let w1 := madd (mmul E B) (mmul D (gT d t12)) in
  let d := wR d r13 (madd (gR d r12) w1) in
  wT d t31 (mmul E T32).
(** 988-1017 *)
Definition l_l_up (m A B : mat) (C : vec) (T12 R21 R23 T32 : mat) (r12 t12 r21 t21 r23 t32 r13 t31 : side) (d : lay) : lay :=
  let w1 := madd (mmul (gR d r23) R21) (mmul R23 (gR d r21)) in
  let D := solve m (madd (gT d t21) (mmul A w1)) in
  let w1 := madd (mmul (gR d r23) T12) (mmul R23 (gT d t12)) in
  let w1 := madd (gR d r12) (mmul A w1) in
  let d := wR d r13 (madd w1 (mmul D B)) in
  wT d t31 (madd (mmul D T32) (mmul A (gT d t32))).
(** 1021-1055 *)
Definition u_b_up (m A B : mat) (C : vec) (T12 : mat) (S12 : vec) (R21 T32 : mat) (r23 t32 s32 r13 t31 s31 : side) (t : R) (d : lay) : lay :=
  let D := mmul A (gR d r23) in
  let E := solve m (mmul D R21) in
  let v1 := vadd (vscale t (gS d s32)) (mv (gR d r23) S12) in
  let v2 := mv A v1 in
  let d := wS d s31 (vadd (mv E C) v2) in
  let d := wR d r13 (madd (mmul E B) (mmul D T12)) in
  wT d t31 (madd (mmul E T32) (mmul A (gT d t32))).
(** 1059-1098 *)
Definition b_u_up (m A B : mat) (C : vec) (D R23 T32 : mat) (S32 : vec) (r12 t12 s12 r21 t21 s21 r13 t31 s31 : side) (t t_l : R) (d : lay) : lay :=
  let E := solve m (madd (gT d t21) (mmul D (gR d r21))) in
  let v1 := vadd (vscale t_l S32) (mv R23 (gS d s12)) in
  let v1 := vadd (gS d s21) (mv A v1) in
  let d := wS d s31 (vadd v1 (mv E C)) in
  let w1 := madd (mmul E B) (mmul D (gT d t12)) in
  let d := wR d r13 (madd (gR d r12) w1) in
  wT d t31 (mmul E T32).
(** 1102-1140 *)
Definition s_b_up (m A B : mat) (C : vec) (T12 : mat) (S12 : vec) (R21 R23 T32 : mat) (s12 s21 r23 t32 s32 r13 t31 s31 : side) (t : R) (d : lay) : lay :=
  let D := mmul A (gR d r23) in
  let E := solve m (mmul D R21) in
  let v1 := vadd (vscale t (gS d s32)) (mv (gR d r23) S12) in
  let v1 := vadd v1 (mv R23 (gS d s12)) in
  let d := wS d s31 (vadd (gS d s21) (mv A v1)) in
  let d := wS d s31 (vadd (gS d s31) (mv E C)) in
  let d := wR d r13 (madd (mmul E B) (mmul D T12)) in
  wT d t31 (madd (mmul E T32) (mmul A (gT d t32))).
(** 1144-1186 *)
Definition b_s_up (m A B : mat) (C : vec) (D R23 T32 : mat) (S32 : vec) (r12 t12 s12 r21 t21 s21 s32 r13 t31 s31 : side) (t t_l : R) (d : lay) : lay :=
  let E := solve m (madd (gT d t21) (mmul D (gR d r21))) in
  let v1 := vadd (vscale t (gS d s32)) (vscale t_l S32) in
  let v1 := vadd v1 (mv R23 (gS d s12)) in
  let d := wS d s31 (vadd (gS d s21) (mv A v1)) in
  let d := wS d s31 (vadd (gS d s31) (mv E C)) in
  let w1 := madd (mmul E B) (mmul D (gT d t12)) in
  let d := wR d r13 (madd (gR d r12) w1) in
  wT d t31 (mmul E T32).
(** 1190-1235 *)
Definition b_b_up (m A B : mat) (C : vec) (T12 : mat) (S12 : vec) (R21 R23 T32 : mat) (S32 : vec)
    (r12 t12 s12 r21 t21 s21 r23 t32 s32 r13 t31 s31 : side) (t t_l : R) (d : lay) : lay :=
  let w1 := madd (mmul (gR d r23) R21) (mmul R23 (gR d r21)) in
  let D := solve m (madd (gT d t21) (mmul A w1)) in
  let v1 := vadd (vscale t (gS d s32)) (vscale t_l S32) in
  let v1 := vadd v1 (mv (gR d r23) S12) in
  let v1 := vadd v1 (mv R23 (gS d s12)) in
  let v1 := vadd (gS d s21) (mv A v1) in
  let d := wS d s31 (vadd v1 (mv D C)) in
  let w1 := madd (mmul (gR d r23) T12) (mmul R23 (gT d t12)) in
  let w1 := madd (gR d r12) (mmul A w1) in
  let d := wR d r13 (madd w1 (mmul D B)) in
  wT d t31 (madd (mmul D T32) (mmul A (gT d t32))).

(** layer_add_all, 1518-1567, one derivative of the upward pass.  Codes without a branch (S_U, S_L, L_S) fall through:
    the message of 1562-1565 is compiled only with DEBUG. *)
Definition up_deriv (code : Z) (m A B : mat) (C : vec) (D : mat) (v : lay) (t t_l : R) (d : lay) : outcome lay :=
  let T12 := gT v U12 in let S12 := gS v U12 in let R21 := gR v U21 in
  let R23 := gR v U23 in let T32 := gT v U32 in let S32 := gS v U32 in
  if is code ADDING_U_U then Ok d
  else if is code ADDING_U_S then Ok (u_s_up A R23 U23 U32 U31 t d)
  else if is code ADDING_S_S then Ok (s_s_up A R23 U12 U21 U23 U32 U31 t d)
  else if is code ADDING_U_L then Ok (u_l_up m A B C T12 R21 T32 U23 U32 U13 U31 d)
  else if is code ADDING_L_U then Ok (l_u_up m A B C D R23 T32 U12 U12 U21 U21 U13 U31 d)
  else if is code ADDING_L_L then Ok (l_l_up m A B C T12 R21 R23 T32 U12 U12 U21 U21 U23 U32 U13 U31 d)
  else if is code ADDING_U_B then Ok (u_b_up m A B C T12 S12 R21 T32 U23 U32 U32 U13 U31 U31 t d)
  else if is code ADDING_B_U then Ok (b_u_up m A B C D R23 T32 S32 U12 U12 U12 U21 U21 U21 U13 U31 U31 t t_l d)
  else if is code ADDING_S_B then Ok (s_b_up m A B C T12 S12 R21 R23 T32 U12 U21 U23 U32 U32 U13 U31 U31 t d)
  else if is code ADDING_B_S then Ok (b_s_up m A B C D R23 T32 S32 U12 U12 U12 U21 U21 U21 U32 U13 U31 U31 t t_l d)
  else if is code ADDING_L_B then exits
  else if is code ADDING_B_L then exits
  else if is code ADDING_B_B then
    Ok (b_b_up m A B C T12 S12 R21 R23 T32 S32 U12 U12 U12 U21 U21 U21 U23 U32 U32 U13 U31 U31 t t_l d)
  else Ok d.
(** 1617-1668, the downward pass: the same routines with the layers exchanged *)
Definition down_deriv (code : Z) (m A B : mat) (C : vec) (D : mat) (v : lay) (t t_l : R) (d : lay) : outcome lay :=
  let T12 := gT v U12 in let S12 := gS v U12 in let R21 := gR v U21 in
  let R23 := gR v U23 in let T32 := gT v U32 in let S32 := gS v U32 in
  if is code ADDING_U_U then Ok d
  else if is code ADDING_U_S then Ok (s_u_up A R21 U32 U23 U13 t d)
  else if is code ADDING_S_S then Ok (s_s_up A R21 U32 U23 U21 U12 U13 t d)
  else if is code ADDING_U_L then Ok (l_u_up m A B C D R21 T12 U32 U32 U23 U23 U31 U13 d)
  else if is code ADDING_L_U then Ok (u_l_up m A B C T32 R23 T12 U21 U12 U31 U13 d)
  else if is code ADDING_L_L then Ok (l_l_up m A B C T32 R23 R21 T12 U32 U32 U23 U23 U21 U12 U31 U13 d)
  else if is code ADDING_U_B then Ok (b_u_up m A B C D R21 T12 S12 U32 U32 U32 U23 U23 U23 U31 U13 U13 t t_l d)
  else if is code ADDING_B_U then Ok (u_b_up m A B C T32 S32 R23 T12 U21 U12 U12 U31 U13 U13 t d)
  else if is code ADDING_S_B then Ok (b_s_up m A B C D R21 T12 S12 U32 U32 U32 U23 U23 U23 U12 U31 U13 U13 t t_l d)
  else if is code ADDING_B_S then Ok (s_b_up m A B C T32 S32 R23 R21 T12 U32 U23 U21 U12 U12 U31 U13 U13 t d)
  else if is code ADDING_L_B then exits
  else if is code ADDING_B_L then exits
  else if is code ADDING_B_B then
    Ok (b_b_up m A B C T32 S32 R23 R21 T12 S12 U32 U32 U32 U23 U23 U23 U21 U12 U12 U31 U13 U13 t t_l d)
  else Ok d.

(** layer_add_all, 1372-1700.  [UB] when dmat_mul of 1578 would write to its own operand. *)
Definition layer_add_all (nd : nat) (t : R) (t_l : nat -> R) (derivs : nat -> Z) (flag : bool)
    (v : lay) (d : nat -> lay) : outcome (lay * (nat -> lay)) :=
  let m := i_sub (mmul (gR v U23) (gR v U21)) in
  let A := solve m (gT v U21) in
  let B := mmul (gR v U23) (gT v U12) in
  let C := vadd (vscale t (gS v U32)) (mv (gR v U23) (gS v U12)) in
  let D := mmul A (gR v U23) in
  match each nd (fun i => up_deriv (derivs i) m A B C D v t (t_l i)) d with
  | Ok d =>
      if flag && side_eqb (at_ U31) (at_ U32) then UB else
      let v := if flag then
                 let v := wS v U31 (vadd (gS v U21) (mv A C)) in
                 let v := wR v U13 (madd (gR v U12) (mmul A B)) in
                 wT v U31 (mmul A (gT v U32))
               else v in
      let m := i_sub (mmul (gR v U21) (gR v U23)) in
      let A := solve m (gT v U23) in
      let B := mmul (gR v U21) (gT v U32) in
      let C := vadd (gS v U12) (vscale t (mv (gR v U21) (gS v U32))) in
      let D := mmul A (gR v U21) in
      match each nd (fun i => down_deriv (derivs i) m A B C D v t (t_l i)) d with
      | Ok d =>
          let v := if flag then
                     let v := wS v U13 (vadd (vscale t (gS v U23)) (mv A C)) in
                     let v := wR v U31 (madd (gR v U32) (mmul A B)) in
                     wT v U13 (mmul A (gT v U12))
                   else v in
          Ok (v, d)
      | Err e => Err e
      | UB => UB
      end
  | Err e => Err e
  | UB => UB
  end.
End Ops.

(* ------------------------------------------------------------------------- *)
(** * The loops over the layers, src/xrtm_model.c *)

(** The operators of one layer, or of a stack of layers: m downwards, p upwards. *)
Record layer := { Rm : mat; Tm : mat; Sm : vec; Rp : mat; Tp : mat; Sp : vec }.
(** The slots [a] (seen from above) and [b] (from below) of a call *)
Definition place (l : layer) (a b : side) (s : lay) : lay :=
  {| mR := put (put (mR s) a (Rm l)) b (Rp l); mT := put (put (mT s) a (Tm l)) b (Tp l);
     vS := put (put (vS s) a (Sm l)) b (Sp l) |}.
Definition pick (a b : side) (s : lay) : layer :=
  {| Rm := mR s a; Tm := mT s a; Sm := vS s a; Rp := mR s b; Tp := mT s b; Sp := vS s b |}.
Definition zmat : mat := fun _ _ => 0.
Definition zvec : vec := fun _ => 0.
Definition no_layer : layer := {| Rm := zmat; Tm := zmat; Sm := zvec; Rp := zmat; Tp := zmat; Sp := zvec |}.
Definition blank : lay := {| mR := fun _ => zmat; mT := fun _ => zmat; vS := fun _ => zvec |}.
(** Outputs in place of the first layer: xrtm_model.c:3459-3467 *)
Definition over_first (x : side) : side := match x with U13 => U12 | U31 => U21 | x => x end.
(** Outputs in place of the second: 2699, 2916 *)
Definition over_second (x : side) : side := match x with U13 => U23 | U31 => U32 | x => x end.
(** No two arguments share memory *)
Definition apart (x : side) : side := x.

(** layer_copy_all_l, xrtm_adding.c:846-888: into the accumulated operators [x] *)
Definition copy_l (code : Z) (x l : layer) : layer :=
  if Z.eqb code ADDING_U_S then {| Rm := Rm x; Tm := Tm x; Sm := Sm l; Rp := Rp x; Tp := Tp x; Sp := Sp l |}
  else if Z.eqb code ADDING_U_L then {| Rm := Rm l; Tm := Tm l; Sm := Sm x; Rp := Rp l; Tp := Tp l; Sp := Sp x |}
  else if Z.eqb code ADDING_U_B then l
  else x.
(** get_total_R_T_S_U_W_V, xrtm_model.c:3413-3468, without the save tree: the layers [ls] and their derivatives [ls_l]
    (after scale_add_source_vectors), the codes derivs_adding_down; [x], [x_l] what the outputs held before *)
Definition total_step (n : nat) (solve : mat -> mat -> mat) (nd : nat) (ls : nat -> layer) (ls_l : nat -> nat -> layer)
    (codes : nat -> nat -> Z) (i : nat) (s : outcome (layer * (nat -> layer))) : outcome (layer * (nat -> layer)) :=
  match s with
  | Ok (x, x_l) =>
      if Nat.eqb i 0 then Ok (ls i, fun j => if Nat.ltb j nd then copy_l (codes i j) (x_l j) (ls_l i j) else x_l j)
      else
        match layer_add_all n solve over_first nd 1 (fun _ => 0) (codes i) true
                (place (ls i) U23 U32 (place x U12 U21 blank))
                (fun j => place (ls_l i j) U23 U32 (place (x_l j) U12 U21 blank)) with
        | Ok (v, d) => Ok (pick U12 U21 v, fun j => pick U12 U21 (d j))
        | Err e => Err e
        | UB => UB
        end
  | Err e => Err e
  | UB => UB
  end.
Definition total_R_T_S n solve (n_layers nd : nat) ls ls_l codes (x : layer) (x_l : nat -> layer) : outcome (layer * (nat -> layer)) :=
  loop n_layers (total_step n solve nd ls ls_l codes) (Ok (x, x_l)).

(** Reflection of a stack seen from one side: R_m and S_p from above, or R_p and S_m from below *)
Record face := { fR : mat; fS : vec }.
Definition no_face : face := {| fR := zmat; fS := zvec |}.
(** layer_copy_ref_l, xrtm_adding.c:119-137 *)
Definition copy_ref_l (l s : bool) (x f : face) : face := {| fR := if l then fR f else fR x; fS := if s then fS f else fS x |}.
Definition put_face (f : face) (s : lay) : lay := {| mR := put (mR s) U23 (fR f); mT := mT s; vS := put (vS s) U32 (fS f) |}.
Definition get_face (s : lay) : face := {| fR := mR s U23; fS := vS s U32 |}.
Definition add_face (n : nat) (solve : mat -> mat -> mat) (nd : nat) (flag : bool) (l : layer) (l_l : nat -> layer) (codes : nat -> Z)
    (x : face) (x_l : nat -> face) : outcome (face * (nat -> face)) :=
  match layer_add_ref n solve over_second nd 1 (fun _ => 0) codes flag true
          (put_face x (place l U12 U21 blank)) (fun j => put_face (x_l j) (place (l_l j) U12 U21 blank)) with
  | Ok (v, d) => Ok (get_face v, fun j => get_face (d j))
  | Err e => Err e
  | UB => UB
  end.
(** get_total_TOA_R_S_U_V, xrtm_model.c:2860-2917, upwards from the surface: [x], [x_l] are the reflection and emission
    of the surface and their derivatives (2853-2868) *)
Definition toa_surface n solve (n_layers nd : nat) ls ls_l codes (x : face) (x_l : nat -> face) : outcome (face * (nat -> face)) :=
  loop_down n_layers (fun i s =>
    match s with
    | Ok (x, x_l) => add_face n solve nd false (ls i) (ls_l i) (codes i) x x_l
    | Err e => Err e
    | UB => UB
    end) (Ok (x, x_l)).
(** A layer upside down *)
Definition flip (l : layer) : layer := {| Rm := Rp l; Tm := Tp l; Sm := Sp l; Rp := Rm l; Tp := Tm l; Sp := Sm l |}.
(** get_total_BOA_R_S_U_V, 2665-2700, downwards: the call of 2699 passes every layer upside down *)
Definition boa_step n solve (nd : nat) ls ls_l (fl_l fl_s : nat -> nat -> bool) codes (i : nat)
    (s : outcome (face * (nat -> face))) : outcome (face * (nat -> face)) :=
  match s with
  | Ok (x, x_l) =>
      if Nat.eqb i 0 then
        Ok ({| fR := Rp (ls i); fS := Sm (ls i) |},
            fun j => if Nat.ltb j nd then copy_ref_l (fl_l i j) (fl_s i j) (x_l j) {| fR := Rp (ls_l i j); fS := Sm (ls_l i j) |} else x_l j)
      else add_face n solve nd true (flip (ls i)) (fun j => flip (ls_l i j)) (codes i) x x_l
  | Err e => Err e
  | UB => UB
  end.
Definition boa n solve (n_layers nd : nat) ls ls_l fl_l fl_s codes (x : face) (x_l : nat -> face) : outcome (face * (nat -> face)) :=
  loop n_layers (boa_step n solve nd ls ls_l fl_l fl_s codes) (Ok (x, x_l)).
(** get_total_TOA_R_S_U_V without a surface, 2911-2917: the bottom layer is copied, the others added above it *)
Definition toa_step n solve (n_layers nd : nat) ls ls_l (fl_l fl_s : nat -> nat -> bool) codes (i : nat)
    (s : outcome (face * (nat -> face))) : outcome (face * (nat -> face)) :=
  match s with
  | Ok (x, x_l) =>
      if Nat.eqb i (n_layers - 1) then
        Ok ({| fR := Rm (ls i); fS := Sp (ls i) |},
            fun j => if Nat.ltb j nd then copy_ref_l (fl_l i j) (fl_s i j) (x_l j) {| fR := Rm (ls_l i j); fS := Sp (ls_l i j) |} else x_l j)
      else add_face n solve nd false (ls i) (ls_l i) (codes i) x x_l
  | Err e => Err e
  | UB => UB
  end.
Definition toa n solve (n_layers nd : nat) ls ls_l fl_l fl_s codes (x : face) (x_l : nat -> face) : outcome (face * (nat -> face)) :=
  loop_down n_layers (toa_step n solve n_layers nd ls ls_l fl_l fl_s codes) (Ok (x, x_l)).
