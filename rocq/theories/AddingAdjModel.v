(** Reverse mode through adding: src/xrtm_adding_a.c (layer_add_ref_a, layer_add_all_a and the routines they call),
    src/xrtm_radiance_a.c, and the functions of src/xrtm_model_a.c that call them: get_total_TOA_R_S_U_V_a,
    get_total_R_T_S_U_W_V_a, fourier_get_add_bottom_up_a, fourier_get_add_both_ways_a.
    Over the reals: rounding is not modelled.

    An array x_a holds the derivative of a weighted sum of the outputs with respect to x.  What the forward pass saves
    (xrtm_adding.c:638-642, 1585-1589, 1691-1695, xrtm_model.c:2904-2910, 3449-3456) is computed here from the layers with
    the functions of AddingModel.  The callers pass distinct arrays, so the arrays are the fields of records.  The
    adjoints of the sources and of the solvers of one layer (scale_source_vectors_a, update_beam_params_a,
    get_layer_R_T_S_U_W_V_a) are not modelled: the loops record what is handed to them, and they leave their arguments
    zero (xrtm_source_a.c:274-275, xrtm_model_a.c:1230).  dmat_getrs2 ('t', ...) is a parameter [tsolve]: with the
    factors that dmat_getrf left for [m] it replaces x by [tsolve m x]; AddingAdjSpec states the contract. *)
From Coq Require Import Reals Bool Arith ZArith.
From Verif Require Import Base DerivsModel DeltaMSpec AddingModel RadianceModel.
Open Scope R_scope.

(** x_a += ... , one array of a layer or of a face *)
Definition incRm (l : layer) (x : mat) : layer := {| Rm := madd (Rm l) x; Tm := Tm l; Sm := Sm l; Rp := Rp l; Tp := Tp l; Sp := Sp l |}.
Definition incTm (l : layer) (x : mat) : layer := {| Rm := Rm l; Tm := madd (Tm l) x; Sm := Sm l; Rp := Rp l; Tp := Tp l; Sp := Sp l |}.
Definition incSm (l : layer) (x : vec) : layer := {| Rm := Rm l; Tm := Tm l; Sm := vadd (Sm l) x; Rp := Rp l; Tp := Tp l; Sp := Sp l |}.
Definition incRp (l : layer) (x : mat) : layer := {| Rm := Rm l; Tm := Tm l; Sm := Sm l; Rp := madd (Rp l) x; Tp := Tp l; Sp := Sp l |}.
Definition incTp (l : layer) (x : mat) : layer := {| Rm := Rm l; Tm := Tm l; Sm := Sm l; Rp := Rp l; Tp := madd (Tp l) x; Sp := Sp l |}.
Definition incSp (l : layer) (x : vec) : layer := {| Rm := Rm l; Tm := Tm l; Sm := Sm l; Rp := Rp l; Tp := Tp l; Sp := vadd (Sp l) x |}.
Definition incR (f : face) (x : mat) : face := {| fR := madd (fR f) x; fS := fS f |}.
Definition incS (f : face) (x : vec) : face := {| fR := fR f; fS := vadd (fS f) x |}.
(** dmat_vxvtmx: the product of a column and a row *)
Definition outer (u v : vec) : mat := fun i j => u i * v j.

Section Ops.
Variable n : nat.
Variable solve tsolve : mat -> mat -> mat.
Notation "a ** b" := (mmul n a b) (at level 40, left associativity).
Notation "a +++ b" := (madd a b) (at level 50, left associativity).
Notation mv := (mv n).
Definition vdot (u v : vec) : R := total n (fun k => u k * v k).

(** What the forward call saves: P and i (the factors of the matrix [sP]), A, B, C *)
Record saved := { sP : mat; sA : mat; sB : mat; sC : vec }.
(** Adjoints of one call of layer_add_ref: the layer (12, 21), the face below (23, 32), the result (13, 31), atran *)
Record adj := { qa : layer; qb : face; qc : face; qt : R }.

(* ------------------------------------------------------------------------- *)
(** * xrtm_adding_a.c:25-305; t is atran, [l] the layer and [f] the face of the forward call *)

(** 25-33 *)
Definition ref_u_p_a (s : saved) (t : R) (z : adj) : adj :=
  let v1 := mv (transp (sA s)) (fS (qc z)) in
  {| qa := qa z; qb := incS (qb z) (vscale t v1); qc := {| fR := fR (qc z); fS := zvec |}; qt := qt z |}.
(** 37-40 *)
Definition ref_p_u_a (s : saved) (t : R) (z : adj) : adj :=
  {| qa := qa z; qb := qb z; qc := {| fR := fR (qc z); fS := zvec |}; qt := qt z |}.
(** 44-59 *)
Definition ref_p_p_a (s : saved) (f : face) (t : R) (z : adj) : adj :=
  let a := incSp (qa z) (fS (qc z)) in
  let v1 := mv (transp (sA s)) (fS (qc z)) in
  let b := incS (qb z) (vscale t v1) in
  let a := incSm a (mv (transp (fR f)) v1) in
  {| qa := a; qb := b; qc := {| fR := fR (qc z); fS := zvec |}; qt := qt z |}.
(** 63-103 *)
Definition ref_u_l_a (s : saved) (l : layer) (f : face) (t : R) (z : adj) : adj :=
  let E := fR (qc z) ** transp (sB s) in
  let D := fR (qc z) ** transp (Tm l) in
  let E := E +++ outer (fS (qc z)) (sC s) in
  let v1 := mv (transp (sA s)) (fS (qc z)) in
  let b := incS (qb z) (vscale t v1) in
  let b := incR b (outer v1 (Sm l)) in
  let w1 := tsolve (sP s) E in
  let D := D +++ w1 ** transp (Rp l) in
  let b := incR b (transp (sA s) ** D) in
  {| qa := qa z; qb := b; qc := no_face; qt := qt z |}.
(** 107-111 *)
Definition ref_l_u_a (z : adj) : adj := {| qa := qa z; qb := qb z; qc := no_face; qt := qt z |}.
(** 115-161 *)
Definition ref_p_l_a (s : saved) (l : layer) (f : face) (t : R) (z : adj) : adj :=
  let E := fR (qc z) ** transp (sB s) in
  let D := fR (qc z) ** transp (Tm l) in
  let a := incSp (qa z) (fS (qc z)) in
  let E := E +++ outer (fS (qc z)) (sC s) in
  let v1 := mv (transp (sA s)) (fS (qc z)) in
  let b := incS (qb z) (vscale t v1) in
  let b := incR b (outer v1 (Sm l)) in
  let a := incSm a (mv (transp (fR f)) v1) in
  let w1 := tsolve (sP s) E in
  let D := D +++ w1 ** transp (Rp l) in
  let b := incR b (transp (sA s) ** D) in
  {| qa := a; qb := b; qc := no_face; qt := qt z |}.
(** 165-221; [D] is the product of the saved A with R23 (395) *)
Definition ref_l_p_a (s : saved) (D : mat) (f : face) (t : R) (z : adj) : adj :=
  let a := incRm (qa z) (fR (qc z)) in
  let E := fR (qc z) ** transp (sB s) in
  let a := incTm a (transp D ** fR (qc z)) in
  let a := incSp a (fS (qc z)) in
  let E := E +++ outer (fS (qc z)) (sC s) in
  let v1 := mv (transp (sA s)) (fS (qc z)) in
  let b := incS (qb z) (vscale t v1) in
  let ta := qt z + vdot (fS f) v1 in
  let a := incSm a (mv (transp (fR f)) v1) in
  let w1 := tsolve (sP s) E in
  let a := incTp a w1 in
  let a := incRp a (transp D ** w1) in
  {| qa := a; qb := b; qc := no_face; qt := ta |}.
(** 225-305 *)
Definition ref_l_l_a (s : saved) (l : layer) (f : face) (t : R) (z : adj) : adj :=
  let a := incRm (qa z) (fR (qc z)) in
  let D := fR (qc z) ** transp (sB s) in
  let w2 := transp (sA s) ** fR (qc z) in
  let b := incR (qb z) (w2 ** transp (Tm l)) in
  let a := incTm a (transp (fR f) ** w2) in
  let a := incSp a (fS (qc z)) in
  let D := D +++ outer (fS (qc z)) (sC s) in
  let v1 := mv (transp (sA s)) (fS (qc z)) in
  let b := incS b (vscale t v1) in
  let ta := qt z + vdot (fS f) v1 in
  let b := incR b (outer v1 (Sm l)) in
  let a := incSm a (mv (transp (fR f)) v1) in
  let w1 := tsolve (sP s) D in
  let a := incTp a w1 in
  let w2 := transp (sA s) ** w1 in
  let b := incR b (w2 ** transp (Rp l)) in
  let a := incRp a (transp (fR f) ** w2) in
  {| qa := a; qb := b; qc := no_face; qt := ta |}.
(** What layer_add_ref saves, xrtm_adding.c:638-642 with 543-567 *)
Definition ref_saved (t : R) (l : layer) (f : face) : saved :=
  let m := i_sub (fR f ** Rp l) in
  {| sP := m; sA := solve m (Tp l); sB := fR f ** Tm l; sC := vadd (vscale t (fS f)) (mv (fR f) (Sm l)) |}.
(** layer_add_ref_a, xrtm_adding_a.c:343-433; a code without a branch changes nothing *)
Definition layer_add_ref_a (t : R) (code : Z) (flag : bool) (l : layer) (f : face) (z : adj) : adj :=
  let s := ref_saved t l f in
  let D := sA s ** fR f in
  if sel flag code ADDING_U_S ADDING_S_U then ref_u_p_a s t z
  else if sel flag code ADDING_S_U ADDING_U_S then ref_p_u_a s t z
  else if is code ADDING_S_S then ref_p_p_a s f t z
  else if sel flag code ADDING_U_B ADDING_B_U then ref_u_l_a s l f t z
  else if sel flag code ADDING_B_U ADDING_U_B then ref_l_u_a z
  else if sel flag code ADDING_S_B ADDING_B_S then ref_p_l_a s l f t z
  else if sel flag code ADDING_B_S ADDING_S_B then ref_l_p_a s D f t z
  else if is code ADDING_B_B then ref_l_l_a s l f t z
  else z.

(* ------------------------------------------------------------------------- *)
(** * 481-851: one half of layer_add_all_a.  The arrays, from the viewpoint of the first half: [ka] the layer above (12,
    21), [kb] the layer below (23, 32), [kc] the result (13, 31).  A half reads and clears R13_a, T31_a, S31_a. *)
Record adjs := { ka : layer; kb : layer; kc : layer; kt : R }.
Definition cleared (c : layer) : layer := {| Rm := zmat; Tm := Tm c; Sm := Sm c; Rp := Rp c; Tp := zmat; Sp := zvec |}.
(** 481-545 *)
Definition u_l_up_a (s : saved) (a b : layer) (t : R) (z : adjs) : adjs :=
  let c := kc z in
  let E := Tp c ** transp (Tp b) in
  let kb' := incTp (kb z) (transp (sA s) ** Tp c) in
  let E := E +++ Rm c ** transp (sB s) in
  let D := Rm c ** transp (Tm a) in
  let E := E +++ outer (Sp c) (sC s) in
  let v1 := mv (transp (sA s)) (Sp c) in
  let kb' := incSp kb' (vscale t v1) in
  let kb' := incRm kb' (outer v1 (Sm a)) in
  let w1 := tsolve (sP s) E in
  let D := D +++ w1 ** transp (Rp a) in
  let kb' := incRm kb' (transp (sA s) ** D) in
  {| ka := ka z; kb := kb'; kc := cleared c; kt := kt z |}.
(** 549-609; [D]: 964, 995 *)
Definition l_u_up_a (s : saved) (D : mat) (b : layer) (z : adjs) : adjs :=
  let c := kc z in
  let E := Tp c ** transp (Tp b) in
  let ka' := incRm (ka z) (Rm c) in
  let E := E +++ Rm c ** transp (sB s) in
  let ka' := incTm ka' (transp D ** Rm c) in
  let ka' := incSp ka' (Sp c) in
  let E := E +++ outer (Sp c) (sC s) in
  let v1 := mv (transp (sA s)) (Sp c) in
  let ta := kt z + vdot (Sp b) v1 in
  let ka' := incSm ka' (mv (transp (Rm b)) v1) in
  let w1 := tsolve (sP s) E in
  let ka' := incTp ka' w1 in
  let ka' := incRp ka' (transp D ** w1) in
  {| ka := ka'; kb := kb z; kc := cleared c; kt := ta |}.
(** 613-685 *)
Definition p_l_up_a (s : saved) (a b : layer) (t : R) (z : adjs) : adjs :=
  let c := kc z in
  let E := Tp c ** transp (Tp b) in
  let kb' := incTp (kb z) (transp (sA s) ** Tp c) in
  let E := E +++ Rm c ** transp (sB s) in
  let D := Rm c ** transp (Tm a) in
  let ka' := incSp (ka z) (Sp c) in
  let E := E +++ outer (Sp c) (sC s) in
  let v1 := mv (transp (sA s)) (Sp c) in
  let kb' := incSp kb' (vscale t v1) in
  let kb' := incRm kb' (outer v1 (Sm a)) in
  let ka' := incSm ka' (mv (transp (Rm b)) v1) in
  let w1 := tsolve (sP s) E in
  let D := D +++ w1 ** transp (Rp a) in
  let kb' := incRm kb' (transp (sA s) ** D) in
  {| ka := ka'; kb := kb'; kc := cleared c; kt := kt z |}.
(** 689-752 *)
Definition l_p_up_a (s : saved) (D : mat) (b : layer) (t : R) (z : adjs) : adjs :=
  let c := kc z in
  let E := Tp c ** transp (Tp b) in
  let ka' := incRm (ka z) (Rm c) in
  let E := E +++ Rm c ** transp (sB s) in
  let ka' := incTm ka' (transp D ** Rm c) in
  let ka' := incSp ka' (Sp c) in
  let E := E +++ outer (Sp c) (sC s) in
  let v1 := mv (transp (sA s)) (Sp c) in
  let kb' := incSp (kb z) (vscale t v1) in
  let ta := kt z + vdot (Sp b) v1 in
  let ka' := incSm ka' (mv (transp (Rm b)) v1) in
  let w1 := tsolve (sP s) E in
  let ka' := incTp ka' w1 in
  let ka' := incRp ka' (transp D ** w1) in
  {| ka := ka'; kb := kb'; kc := cleared c; kt := ta |}.
(** 756-851 *)
Definition l_l_up_a (s : saved) (a b : layer) (t : R) (z : adjs) : adjs :=
  let c := kc z in
  let D := Tp c ** transp (Tp b) in
  let kb' := incTp (kb z) (transp (sA s) ** Tp c) in
  let ka' := incRm (ka z) (Rm c) in
  let D := D +++ Rm c ** transp (sB s) in
  let w2 := transp (sA s) ** Rm c in
  let kb' := incRm kb' (w2 ** transp (Tm a)) in
  let ka' := incTm ka' (transp (Rm b) ** w2) in
  let ka' := incSp ka' (Sp c) in
  let D := D +++ outer (Sp c) (sC s) in
  let v1 := mv (transp (sA s)) (Sp c) in
  let kb' := incSp kb' (vscale t v1) in
  let ta := kt z + vdot (Sp b) v1 in
  let kb' := incRm kb' (outer v1 (Sm a)) in
  let ka' := incSm ka' (mv (transp (Rm b)) v1) in
  let w1 := tsolve (sP s) D in
  let ka' := incTp ka' w1 in
  let w2 := transp (sA s) ** w1 in
  let kb' := incRm kb' (w2 ** transp (Rp a)) in
  let ka' := incRp ka' (transp (Rm b) ** w2) in
  {| ka := ka'; kb := kb'; kc := cleared c; kt := ta |}.
(** What layer_add_all saves, xrtm_adding.c:1585-1589 and 1691-1695 *)
Definition up_saved (t : R) (a b : layer) : saved :=
  let m := i_sub (Rm b ** Rp a) in
  {| sP := m; sA := solve m (Tp a); sB := Rm b ** Tm a; sC := vadd (vscale t (Sp b)) (mv (Rm b) (Sm a)) |}.
Definition down_saved (t : R) (a b : layer) : saved :=
  let m := i_sub (Rp a ** Rm b) in
  {| sP := m; sA := solve m (Tm b); sB := Rp a ** Tp b; sC := vadd (Sm a) (vscale t (mv (Rp a) (Sp b))) |}.
(** The arguments of the second half: the layers exchanged and upside down *)
Definition turned (z : adjs) : adjs := {| ka := flip (kb z); kb := flip (ka z); kc := flip (kc z); kt := kt z |}.
(** layer_add_all_a, 901-1026 *)
Definition all_up_a (t : R) (code : Z) (a b : layer) (z : adjs) : adjs :=
  let s := up_saved t a b in
  if is code ADDING_U_B then u_l_up_a s a b t z
  else if is code ADDING_B_S then l_p_up_a s (sA s ** Rm b) b t z
  else l_l_up_a s a b t z.
Definition all_down_a (t : R) (code : Z) (a b : layer) (z : adjs) : adjs :=
  let s := down_saved t a b in
  if is code ADDING_U_B then turned (l_u_up_a s (sA s ** Rp a) (flip a) (turned z))
  else if is code ADDING_B_S then turned (p_l_up_a s (flip b) (flip a) t (turned z))
  else turned (l_l_up_a s (flip b) (flip a) t (turned z)).
Definition layer_add_all_a (t : R) (code : Z) (a b : layer) (z : adjs) : adjs := all_down_a t code a b (all_up_a t code a b z).

(* ------------------------------------------------------------------------- *)
(** * The loops of xrtm_model_a.c *)

(** get_total_R_T_S_U_W_V_a, 1492-1647, upwards through the layers.  [r1]: R1.._a (at first the adjoint of the result),
    [r2]: R2_a, T2_a, S3_a, [r3]: R3_a, T3_a, S4_a; [given]: what is handed to the adjoint of layer i. *)
Record run := { r1 : layer; r2 : layer; r3 : layer; given : nat -> layer; rt : R }.
(** The operators of the layers above layer i, saved at xrtm_model.c:3449-3450 *)
Definition sum_of (ls : nat -> layer) (i : nat) : layer :=
  match total_R_T_S n solve i 0 ls (fun _ _ => no_layer) (fun _ _ => 0%Z) no_layer (fun _ => no_layer) with
  | Ok (y, _) => y
  | _ => no_layer
  end.
Definition total_a_step (ls : nat -> layer) (codes : nat -> Z) (i : nat) (s : run) : run :=
  let s := if Nat.eqb i 0 then {| r1 := r1 s; r2 := r1 s; r3 := r3 s; given := given s; rt := rt s |}
           else
             let z := layer_add_all_a 1 (codes i) (sum_of ls i) (ls i) {| ka := r3 s; kb := r2 s; kc := r1 s; kt := rt s |} in
             {| r1 := ka z; r2 := kb z; r3 := no_layer; given := given s; rt := kt z |} in
  {| r1 := r1 s; r2 := no_layer; r3 := r3 s; given := set1 (given s) i (r2 s); rt := rt s |}.
Definition total_a (n_layers : nat) (ls : nat -> layer) (codes : nat -> Z) (g : layer) : run :=
  loop_down n_layers (total_a_step ls codes) {| r1 := g; r2 := no_layer; r3 := no_layer; given := fun _ => no_layer; rt := 0 |}.

(** get_total_TOA_R_S_U_V_a, 1288-1432, downwards.  [t1]: R1_m_a, S1_p_a, [t3]: R3_m_a, S4_p_a, [t2]: R2_a, T2_a, S3_a *)
Record climb := { t1 : face; t2 : layer; t3 : face; handed : nat -> layer; tt_ : R }.
(** The face below layer i, saved at xrtm_model.c:2905: the layers from i + 1 on above the surface [f], or above
    nothing *)
Definition under (n_layers : nat) (ls : nat -> layer) (surface : option face) (i : nat) : face :=
  let ls' k := ls (S i + k)%nat in let m := (n_layers - S i)%nat in
  match (match surface with
         | Some f => toa_surface n solve m 0 ls' (fun _ _ => no_layer) (fun _ _ => 0%Z) f (fun _ => no_face)
         | None => toa n solve m 0 ls' (fun _ _ => no_layer) (fun _ _ => false) (fun _ _ => false) (fun _ _ => 0%Z) no_face (fun _ => no_face)
         end) with
  | Ok (y, _) => y
  | _ => no_face
  end.
Definition toa_a_step (n_layers : nat) (ls : nat -> layer) (surface : option face) (codes : nat -> Z) (i : nat) (s : climb) : climb :=
  let s := if match surface with None => Nat.eqb i (n_layers - 1) | Some _ => false end then
             {| t1 := t1 s; t3 := t3 s; handed := handed s; tt_ := tt_ s;
                t2 := {| Rm := fR (t1 s); Tm := Tm (t2 s); Sm := Sm (t2 s); Rp := Rp (t2 s); Tp := Tp (t2 s); Sp := fS (t1 s) |} |}
           else
             let z := layer_add_ref_a 1 (codes i) false (ls i) (under n_layers ls surface i) {| qa := t2 s; qb := t3 s; qc := t1 s; qt := tt_ s |} in
             {| t1 := qb z; t2 := qa z; t3 := no_face; handed := handed s; tt_ := qt z |} in
  {| t1 := t1 s; t2 := no_layer; t3 := t3 s; handed := set1 (handed s) i (t2 s); tt_ := tt_ s |}.
(** the result: what is handed to the layers, and the adjoint of the surface, [f_a] increased (1420-1423) *)
Definition toa_a (n_layers : nat) (ls : nat -> layer) (surface : option face) (codes : nat -> Z) (g : face) (f_a : face) : (nat -> layer) * face :=
  let s := loop n_layers (toa_a_step n_layers ls surface codes)
             {| t1 := g; t2 := no_layer; t3 := no_face; handed := fun _ => no_layer; tt_ := 0 |} in
  (handed s, match surface with Some _ => {| fR := madd (fR f_a) (fR (t1 s)); fS := vadd (fS f_a) (fS (t1 s)) |} | None => f_a end).

(* ------------------------------------------------------------------------- *)
(** * xrtm_radiance_a.c *)

(** radiance_slab_a, 22-55: adjoints of R, T, S, of what falls from both sides, I1_a and I2_a; [g]: I1_p_a *)
Record slab_adj := { hR : mat; hT : mat; hS : vec; h1 : vec; h2 : vec }.
Definition slab_a (Rr T : mat) (I1 I2 g : vec) (z : slab_adj) : slab_adj :=
  {| hR := hR z +++ outer g I1; h1 := vadd (h1 z) (mv (transp Rr) g); hT := hT z +++ outer g I2; h2 := vadd (h2 z) (mv (transp T) g);
     hS := vadd (hS z) g |}.
(** radiance_toa_ref_a, 63-97: adjoints of R, S and of what falls on the top *)
Definition toa_ref_a (Rr : mat) (I1 g : vec) (R_a : mat) (S_a I1_a : vec) : mat * vec * vec :=
  (R_a +++ outer g I1, vadd S_a g, vadd I1_a (mv (transp Rr) g)).
(** radiance_boa_all_a, 147-264; [gp], [gm]: I2_p_a, I2_m_a; I2_m the saved radiance *)
Record boa_adj := { bR12 : mat; bT12 : mat; bR23 : mat; bS12 : vec; b3 : vec; b1 : vec }.
(** dmat_getrs2 ('t', ...) with one vector, where dmat_getrf was given [w] itself *)
Definition ctsolve (w : mat) (v : vec) : vec := fun k => tsolve (transp w) (fun _ c => v c) 0%nat k.
Definition boa_all_a (R12 T12 R23 : mat) (I3 I1 I2_m gp gm : vec) (z : boa_adj) : boa_adj :=
  let r23 := bR23 z +++ outer gp I2_m in
  let gm := vadd gm (mv (transp R23) gp) in
  let i3 := vadd (b3 z) gp in
  let t := ctsolve (i_sub (R12 ** R23)) gm in
  let Q := outer t I2_m in
  let r12 := bR12 z +++ outer t I3 in
  let i3 := vadd i3 (mv (transp R12) t) in
  let t12 := bT12 z +++ outer t I1 in
  let i1 := vadd (b1 z) (mv (transp T12) t) in
  let s12 := vadd (bS12 z) t in
  let r12 := r12 +++ Q ** transp R23 in
  let r23 := r23 +++ transp R12 ** Q in
  {| bR12 := r12; bT12 := t12; bR23 := r23; bS12 := s12; b3 := i3; b1 := i1 |}.

(** fourier_get_add_bottom_up_a, 2137-2224: [gp], [gm] are I_p_a[0], I_m_a[0]; the results are what is handed to the
    layers, and the adjoints of the surface (Rs_qq_a, In_p_a) and of I1_m, the last two increased.  What update_diff_bound_input_a
    makes of them is in BoundModel. *)
Definition bottom_up_a (N : nat) (ls : nat -> layer) (codes : nat -> Z) (surface : option mat) (t b : vec)
    (gp gm : vec) (t_a b_a : vec) : (nat -> layer) * face * vec :=
  let f := match surface with Some Rs => Some {| fR := Rs; fS := b |} | None => None end in
  let y := match (match f with
                  | Some f => toa_surface n solve N 0 ls (fun _ _ => no_layer) (fun _ _ => 0%Z) f (fun _ => no_face)
                  | None => toa n solve N 0 ls (fun _ _ => no_layer) (fun _ _ => false) (fun _ _ => false) (fun _ _ => 0%Z) no_face (fun _ => no_face)
                  end) with Ok (y, _) => y | _ => no_face end in
  let t_a := vadd t_a gm in
  let '(R_a, S_a, t_a) := toa_ref_a (fR y) t gp zmat zvec t_a in
  let '(out, f_a) := toa_a N ls f codes {| fR := R_a; fS := S_a |} {| fR := zmat; fS := b_a |} in
  (out, f_a, t_a).

(** fourier_get_add_both_ways_a, 2274-2417.  [gp], [gm]: I_p_a, I_m_a by output level; [y] the operators of all layers.
    Without a surface, 2336-2354: [ya] R_p_a ... S_m_a *)
Record both := { ya : layer; yR : mat; y1 : vec; yn : vec; gps : nat -> vec; gms : nat -> vec }.
Definition both_slab_a (N nu : nat) (ul : nat -> nat) (y : layer) (t b : vec) (s : both) : both :=
  loop nu (fun i s =>
    if Nat.eqb (ul i) 0 then
      let t_a := vadd (y1 s) (gms s i) in
      let z := slab_a (Rm y) (Tp y) t b (gps s i) {| hR := Rm (ya s); hT := Tp (ya s); hS := Sp (ya s); h1 := t_a; h2 := yn s |} in
      {| ya := {| Rm := hR z; Tm := Tm (ya s); Sm := Sm (ya s); Rp := Rp (ya s); Tp := hT z; Sp := hS z |};
         yR := yR s; y1 := h1 z; yn := h2 z; gps := set1 (gps s) i zvec; gms := gms s |}
    else if Nat.eqb (ul i) N then
      let z := slab_a (Rp y) (Tm y) t b (gms s i) {| hR := Rp (ya s); hT := Tm (ya s); hS := Sm (ya s); h1 := y1 s; h2 := yn s |} in
      {| ya := {| Rm := Rm (ya s); Tm := hT z; Sm := hS z; Rp := hR z; Tp := Tp (ya s); Sp := Sp (ya s) |};
         yR := yR s; y1 := h1 z; yn := h2 z; gps := gps s; gms := set1 (gms s) i zvec |}
    else s) s.
(** With a surface, 2355-2379: [p1], [m1] the radiances at the bottom that the forward pass saved *)
Definition both_surface_a (N nu : nat) (ul : nat -> nat) (y : layer) (f : face) (t p1 m1 : vec) (s : both) : both :=
  let place := if Nat.eqb (ul 0%nat) N then Some 0%nat else if Nat.ltb 1 nu && Nat.eqb (ul 1%nat) N then Some 1%nat else None in
  let gp1 := match place with Some i => gps s i | None => zvec end in
  let gm1 := match place with Some i => gms s i | None => zvec end in
  let '(s, gp1) :=
    if Nat.eqb (ul 0%nat) 0 then
      let t_a := vadd (y1 s) (gms s 0%nat) in
      let z := slab_a (Rm y) (Tp y) t p1 (gps s 0%nat) {| hR := Rm (ya s); hT := Tp (ya s); hS := Sp (ya s); h1 := t_a; h2 := gp1 |} in
      ({| ya := {| Rm := hR z; Tm := Tm (ya s); Sm := Sm (ya s); Rp := Rp (ya s); Tp := hT z; Sp := hS z |};
          yR := yR s; y1 := h1 z; yn := yn s; gps := set1 (gps s) 0 zvec; gms := gms s |}, h2 z)
    else (s, gp1) in
  let z := boa_all_a (Rp y) (Tm y) (fR f) (fS f) t m1 gp1 gm1
             {| bR12 := Rp (ya s); bT12 := Tm (ya s); bR23 := yR s; bS12 := Sm (ya s); b3 := yn s; b1 := y1 s |} in
  {| ya := {| Rm := Rm (ya s); Tm := bT12 z; Sm := bS12 z; Rp := bR12 z; Tp := Tp (ya s); Sp := Sp (ya s) |};
     yR := bR23 z; y1 := b1 z; yn := b3 z; gps := gps s; gms := gms s |}.
(** The results: what is handed to the layers, the adjoints of the surface (Rs_qq_a, In_p_a) and of I1_m *)
Definition both_ways_a (N nu : nat) (ul : nat -> nat) (ls : nat -> layer) (codes : nat -> Z) (surface : option mat) (t b : vec)
    (gp gm : nat -> vec) (t_a b_a : vec) : (nat -> layer) * face * vec :=
  let y := sum_of ls N in
  let s := {| ya := no_layer; yR := zmat; y1 := t_a; yn := b_a; gps := gp; gms := gm |} in
  let s := match surface with
           | None => both_slab_a N nu ul y t b s
           | Some Rs =>
               let pm := boa_all n solve (Rp y) (Tm y) Rs (Sm y) b t in
               both_surface_a N nu ul y {| fR := Rs; fS := b |} t (fst pm) (snd pm) s
           end in
  (given (total_a N ls codes (ya s)), {| fR := yR s; fS := yn s |}, y1 s).
End Ops.
