(** Radiances from the operators of a stack of layers, src/xrtm_radiance.c: radiance_slab, radiance_toa_ref,
    radiance_boa_ref, radiance_toa_all, radiance_boa_all, and the functions of src/xrtm_model.c that call them after the
    layers have been added: fourier_get_add_top_down, fourier_get_add_bottom_up, fourier_get_add_both_ways.
    Over the reals: rounding is not modelled.  The save tree, the STACK_REUSE_ADDING variants and the matrices of the
    surface and of the layers, which are arguments here, are not modelled in this file. *)
From Coq Require Import Reals Bool Arith ZArith.
From Verif Require Import Base DerivsModel DeltaMSpec AddingModel.
Open Scope R_scope.

Section Ops.
Variable n : nat.
Variable solve : mat -> mat -> mat.
Notation mv := (mv n).
Notation mmul := (mmul n).

(** dmat_getrf of [w] itself, then dmat_getrs with the one vector [v] *)
Definition transp (a : mat) : mat := fun i j => a j i.
Definition csolve (w : mat) (v : vec) : vec := fun k => solve (transp w) (fun _ c => v c) 0%nat k.

(** The bits of a code, src/xrtm_adding.h:21-28 *)
Definition top_l (c : Z) : bool := Z.testbit c 3.
Definition top_s (c : Z) : bool := Z.testbit c 2.
Definition bottom_l (c : Z) : bool := Z.testbit c 1.
Definition bottom_s (c : Z) : bool := Z.testbit c 0.

(** radiance_slab, xrtm_radiance.c:23-92; values 36-39 *)
Definition slab (Rr T : mat) (S_ I1 I2 : vec) : vec := vadd (vadd (mv Rr I1) (mv T I2)) S_.
(** one derivative, 41-83 *)
Definition slab_l (c : Z) (Rr T : mat) (R_l T_l : mat) (S_l I1 I2 I1_l I2_l : vec) : vec :=
  if negb (top_s c) && negb (top_l c) then vadd (mv Rr I1_l) (mv T I2_l)
  else if top_s c && negb (top_l c) then vadd (vadd (mv Rr I1_l) (mv T I2_l)) S_l
  else if negb (top_s c) && top_l c then vadd (vadd (vadd (mv R_l I1) (mv Rr I1_l)) (mv T_l I2)) (mv T I2_l)
  else vadd (vadd (vadd (vadd (mv R_l I1) (mv Rr I1_l)) (mv T_l I2)) (mv T I2_l)) S_l.

(** radiance_toa_ref, 99-143 *)
Definition toa_ref (Rr : mat) (S_ I1 : vec) : vec := vadd (mv Rr I1) S_.
Definition toa_ref_l (c : Z) (Rr R_l : mat) (S_l I1 I1_l : vec) : vec :=
  let s := top_s c || bottom_s c in let l := top_l c || bottom_l c in
  if negb s && negb l then mv Rr I1_l
  else if s && negb l then vadd (mv Rr I1_l) S_l
  else if negb s && l then vadd (mv R_l I1) (mv Rr I1_l)
  else vadd (vadd (mv R_l I1) (mv Rr I1_l)) S_l.

(** radiance_boa_ref, 150-306: the results are (I2_p, I2_m) *)
Definition boa_ref (R12 : mat) (S12 : vec) (R23 : mat) (I3 : vec) : vec * vec :=
  let I2_m := csolve (i_sub (mmul R12 R23)) (vadd (mv R12 I3) S12) in
  (vadd (mv R23 I2_m) I3, I2_m).
(** one derivative, 191-302; [old] is what the arrays held before: a code without a branch leaves it there (the message
    of 297-300 is compiled only with DEBUG) *)
Definition boa_ref_l (c : Z) (R12 R23 : mat) (R12_l R23_l : mat) (S12_l I3 I3_l I2_m : vec) (old : vec * vec) : vec * vec :=
  let w1 := i_sub (mmul R12 R23) in
  if Z.eqb c ADDING_U_U then
    let m := csolve w1 (mv R12 I3_l) in (vadd (mv R23 m) I3_l, m)
  else if Z.eqb c ADDING_U_L || Z.eqb c ADDING_U_B then
    let v1 := mv (mmul R12 R23_l) I2_m in
    let m := csolve w1 (vadd v1 (mv R12 I3_l)) in
    (vadd (vadd (mv R23_l I2_m) (mv R23 m)) I3_l, m)
  else if Z.eqb c ADDING_L_U then
    let v1 := vadd (mv (mmul R12_l R23) I2_m) (mv R12_l I3) in
    let m := csolve w1 (vadd v1 (mv R12 I3_l)) in
    (vadd (mv R23 m) I3_l, m)
  else if Z.eqb c ADDING_L_L then
    let v1 := vadd (mv (madd (mmul R12_l R23) (mmul R12 R23_l)) I2_m) (mv R12_l I3) in
    let m := csolve w1 (vadd v1 (mv R12 I3_l)) in
    (vadd (vadd (mv R23_l I2_m) (mv R23 m)) I3_l, m)
  else if Z.eqb c ADDING_B_U || Z.eqb c ADDING_B_S then
    let v1 := vadd (mv (mmul R12_l R23) I2_m) (mv R12_l I3) in
    let m := csolve w1 (vadd (vadd v1 (mv R12 I3_l)) S12_l) in
    (vadd (mv R23 m) I3_l, m)
  else if Z.eqb c ADDING_B_L || Z.eqb c ADDING_B_B then
    let v1 := vadd (mv (madd (mmul R12_l R23) (mmul R12 R23_l)) I2_m) (mv R12_l I3) in
    let m := csolve w1 (vadd (vadd v1 (mv R12 I3_l)) S12_l) in
    (vadd (vadd (mv R23_l I2_m) (mv R23 m)) I3_l, m)
  else old.

(** radiance_boa_all, 336-567 *)
Definition boa_all (R12 T12 R23 : mat) (S12 I3 I1 : vec) : vec * vec :=
  let I2_m := csolve (i_sub (mmul R12 R23)) (vadd (vadd (mv R12 I3) (mv T12 I1)) S12) in
  (vadd (mv R23 I2_m) I3, I2_m).
(** one derivative, 407-563 *)
Definition boa_all_l (c : Z) (R12 T12 R23 : mat) (R12_l T12_l R23_l : mat) (S12_l I3 I1 I3_l I1_l I2_m : vec) (old : vec * vec) : vec * vec :=
  let w1 := i_sub (mmul R12 R23) in
  if Z.eqb c ADDING_U_U || Z.eqb c ADDING_U_S then
    let m := csolve w1 (vadd (mv R12 I3_l) (mv T12 I1_l)) in
    (vadd (mv R23 m) I3_l, m)
  else if Z.eqb c ADDING_U_L || Z.eqb c ADDING_U_B then
    let v1 := vadd (mv (mmul R12 R23_l) I2_m) (mv R12 I3_l) in
    let m := csolve w1 (vadd v1 (mv T12 I1_l)) in
    (vadd (vadd (mv R23_l I2_m) (mv R23 m)) I3_l, m)
  else if Z.eqb c ADDING_S_U then
    let m := csolve w1 S12_l in
    (mv R23 m, m)
  else if Z.eqb c ADDING_L_U then
    let v1 := vadd (mv (mmul R12_l R23) I2_m) (mv R12_l I3) in
    let v1 := vadd v1 (mv R12 I3_l) in
    let v1 := vadd v1 (mv T12_l I1) in
    let m := csolve w1 (vadd v1 (mv T12 I1_l)) in
    (vadd (mv R23 m) I3_l, m)
  else if Z.eqb c ADDING_L_L then
    let v1 := vadd (mv (madd (mmul R12_l R23) (mmul R12 R23_l)) I2_m) (mv R12_l I3) in
    let v1 := vadd v1 (mv T12_l I1) in
    let m := csolve w1 (vadd v1 (mv T12 I1_l)) in
    (vadd (mv R23_l I2_m) (mv R23 m), m)
  else if Z.eqb c ADDING_B_U || Z.eqb c ADDING_B_S then
    let v1 := vadd (mv (mmul R12_l R23) I2_m) (mv R12_l I3) in
    let v1 := vadd v1 (mv R12 I3_l) in
    let v1 := vadd v1 (mv T12_l I1) in
    let v1 := vadd v1 (mv T12 I1_l) in
    let m := csolve w1 (vadd v1 S12_l) in
    (vadd (mv R23 m) I3_l, m)
  else if Z.eqb c ADDING_B_L || Z.eqb c ADDING_B_B then
    let v1 := vadd (mv (madd (mmul R12_l R23) (mmul R12 R23_l)) I2_m) (mv R12_l I3) in
    let v1 := vadd v1 (mv R12 I3_l) in
    let v1 := vadd v1 (mv T12_l I1) in
    let v1 := vadd v1 (mv T12 I1_l) in
    let m := csolve w1 (vadd v1 S12_l) in
    (vadd (vadd (mv R23_l I2_m) (mv R23 m)) I3_l, m)
  else old.

(** The output arrays I_p, I_m, by output level, and their derivatives, by output level and derivative *)
Record rad := { I_p : nat -> vec; I_m : nat -> vec; I_p_l : nat -> nat -> vec; I_m_l : nat -> nat -> vec }.
Definition set1 {A} (f : nat -> A) (i : nat) (v : A) : nat -> A := fun k => if Nat.eqb k i then v else f k.
(** the derivatives [0 .. nd - 1] of one level *)
Definition derivs_of (nd : nat) (old new : nat -> vec) : nat -> vec := fun j => if Nat.ltb j nd then new j else old j.
Definition put_level (nd i : nat) (p m : vec) (p_l m_l : nat -> vec) (r : rad) : rad :=
  {| I_p := set1 (I_p r) i p; I_m := set1 (I_m r) i m;
     I_p_l := set1 (I_p_l r) i (derivs_of nd (I_p_l r i) p_l); I_m_l := set1 (I_m_l r) i (derivs_of nd (I_m_l r i) m_l) |}.

(** fourier_get_add_both_ways without a surface, xrtm_model.c:4851-4886: the operators [y], [y_l] of all layers; [t], [b]
    what falls on the top and on the bottom, I1_m and In_p *)
Definition both_slab (N nd nu : nat) (ul : nat -> nat) (y : layer) (y_l : nat -> layer) (cs : nat -> Z)
    (t b : vec) (t_l b_l : nat -> vec) (r : rad) : rad :=
  loop nu (fun i r =>
    if Nat.eqb (ul i) 0 then
      put_level nd i (slab (Rm y) (Tp y) (Sp y) t b) t
        (fun j => slab_l (cs j) (Rm y) (Tp y) (Rm (y_l j)) (Tp (y_l j)) (Sp (y_l j)) t b (t_l j) (b_l j)) t_l r
    else if Nat.eqb (ul i) N then
      put_level nd i b (slab (Rp y) (Tm y) (Sm y) b t) b_l
        (fun j => slab_l (cs j) (Rp y) (Tm y) (Rp (y_l j)) (Tm (y_l j)) (Sm (y_l j)) b t (b_l j) (t_l j)) r
    else r) r.
(** ... with a surface [f], 4887-4925; fS f is In_p, fR f is Rs_qq.  The arrays for the bottom are those of output level
    0 or 1 when that is the bottom, else work arrays. *)
Definition both_surface (N nd nu : nat) (ul : nat -> nat) (y : layer) (y_l : nat -> layer) (cs : nat -> Z)
    (f : face) (f_l : nat -> face) (t : vec) (t_l : nat -> vec) (work : nat -> vec * vec) (r : rad) : rad :=
  let place := if Nat.eqb (ul 0%nat) N then Some 0%nat else if Nat.ltb 1 nu && Nat.eqb (ul 1%nat) N then Some 1%nat else None in
  let old j := match place with Some i => (I_p_l r i j, I_m_l r i j) | None => work j end in
  let pm := boa_all (Rp y) (Tm y) (fR f) (Sm y) (fS f) t in
  let pm_l j := boa_all_l (cs j) (Rp y) (Tm y) (fR f) (Rp (y_l j)) (Tm (y_l j)) (fR (f_l j)) (Sm (y_l j)) (fS f) t (fS (f_l j)) (t_l j) (snd pm) (old j) in
  let r := match place with Some i => put_level nd i (fst pm) (snd pm) (fun j => fst (pm_l j)) (fun j => snd (pm_l j)) r | None => r end in
  if Nat.eqb (ul 0%nat) 0 then
    put_level nd 0 (slab (Rm y) (Tp y) (Sp y) t (fst pm)) t
      (fun j => slab_l (cs j) (Rm y) (Tp y) (Rm (y_l j)) (Tp (y_l j)) (Sp (y_l j)) t (fst pm) (t_l j) (fst (pm_l j))) t_l r
  else r.
(** fourier_get_add_both_ways, 4739-4956: [ls], [ls_l] and [cs] as for total_R_T_S, [x] and [x_l] what its result arrays
    held; [b], [b_l]: In_p, which with a surface are fS f and fS (f_l j); the row of the codes is that of the surface *)
Definition both_ways (N nd nu : nat) (ul : nat -> nat) ls ls_l (cs : nat -> nat -> Z) (surface : option (mat * (nat -> mat)))
    (t b : vec) (t_l b_l : nat -> vec) x x_l work (r : rad) : outcome rad :=
  match total_R_T_S n solve N nd ls ls_l cs x x_l with
  | Ok (y, y_l) =>
      Ok (match surface with
          | None => both_slab N nd nu ul y y_l (cs N) t b t_l b_l r
          | Some (Rs, Rs_l) => both_surface N nd nu ul y y_l (cs N) {| fR := Rs; fS := b |} (fun j => {| fR := Rs_l j; fS := b_l j |}) t t_l work r
          end)
  | Err e => Err e
  | UB => UB
  end.

(** fourier_get_add_top_down, 4496-4602: one output level, the bottom *)
Definition top_down (N nd : nat) ls ls_l fl_l fl_s (cs : nat -> nat -> Z) (surface : option (mat * (nat -> mat)))
    (t b : vec) (t_l b_l : nat -> vec) x x_l (r : rad) : outcome rad :=
  match boa n solve N nd ls ls_l fl_l fl_s cs x x_l with
  | Ok (y, y_l) =>
      Ok (match surface with
          | None => put_level nd 0 zvec (fS y) (fun _ => zvec) (fun j => if top_s (cs N j) then fS (y_l j) else zvec) r
          | Some (Rs, Rs_l) =>
              let pm := boa_ref (fR y) (fS y) Rs b in
              let pm_l j := boa_ref_l (cs N j) (fR y) Rs (fR (y_l j)) (Rs_l j) (fS (y_l j)) b (b_l j) (snd pm) (I_p_l r 0%nat j, I_m_l r 0%nat j) in
              put_level nd 0 (fst pm) (snd pm) (fun j => fst (pm_l j)) (fun j => snd (pm_l j)) r
          end)
  | Err e => Err e
  | UB => UB
  end.
(** fourier_get_add_bottom_up, 4609-4732: one output level, the top; [cs]: derivs_adding_up *)
Definition bottom_up (N nd : nat) ls ls_l fl_l fl_s (cs : nat -> nat -> Z) (surface : option (mat * (nat -> mat)))
    (t b : vec) (t_l b_l : nat -> vec) x x_l (r : rad) : outcome rad :=
  match match surface with
        | None => toa n solve N nd ls ls_l fl_l fl_s cs x x_l
        | Some (Rs, Rs_l) => toa_surface n solve N nd ls ls_l cs {| fR := Rs; fS := b |} (fun j => {| fR := Rs_l j; fS := b_l j |})
        end with
  | Ok (y, y_l) =>
      Ok (put_level nd 0 (toa_ref (fR y) (fS y) t) t
            (fun j => toa_ref_l (cs 0%nat j) (fR y) (fR (y_l j)) (fS (y_l j)) t (t_l j)) t_l r)
  | Err e => Err e
  | UB => UB
  end.
End Ops.
