(** The result caches of a handle: the dependency flags of src/xrtm_interface.c (init_deps,
    set_deps and the setters that raise them) and the functions of src/xrtm_model.c that test the
    flags, recompute what is out of date and hand out what is stored.

    What the model keeps: every flag word, every stored quantity, the order in which the functions
    test, clear and recompute, and which stored quantities and inputs each computation reads.  What
    it leaves open: the arithmetic.  The functions that compute one quantity from others are the
    fields of [physics], over an arbitrary type [V], and every theorem holds for all of them.

    Simplified: the arrays of one quantity (matrix, source vector, both signs, both
    polarizations) are one value, the derivatives of one quantity are one value, and an array that
    is not computed because derivatives are off is the value [none].  The input a flag stands for
    is a function of the layer; inputs that do not belong to a layer use the whole function.
    Not modelled: phase matrices in the Lidort form (resolve_deps2, xrtm_model.c 77-89), the
    layer stacks of STACK_REUSE_ADDING (the functions _2), the solvers outside the project. *)
From Coq Require Import List Bool PeanoNat.
Import ListNotations.
Open Scope nat_scope.

(** src/xrtm_model.h 23-58; the bit of an input names the input. *)
Inductive dep :=
  INIT | DOUB_D_TAU | PADE_PARAMS | SOS_PARAMS | FOURIER_TOL | LAMBDA | PLANET_R | LEVELS_Z | ULEVELS
| UTAUS | UMUS | F_0 | MU_0 | PHI_0 | F_ISO_TOP | F_ISO_TOP_L | F_ISO_BOT | F_ISO_BOT_L | LEVELS_B
| LEVELS_B_L | SURFACE_B | SURFACE_B_L | G | G_L | COEF | COEF_L | OMEGA | OMEGA_L | LTAU | LTAU_L
| BRDF | BRDF_L.
Definition dep_eqb (a b : dep) : bool :=
  match a, b with
  | INIT, INIT | DOUB_D_TAU, DOUB_D_TAU | PADE_PARAMS, PADE_PARAMS | SOS_PARAMS, SOS_PARAMS
  | FOURIER_TOL, FOURIER_TOL | LAMBDA, LAMBDA | PLANET_R, PLANET_R | LEVELS_Z, LEVELS_Z
  | ULEVELS, ULEVELS | UTAUS, UTAUS | UMUS, UMUS | F_0, F_0 | MU_0, MU_0 | PHI_0, PHI_0
  | F_ISO_TOP, F_ISO_TOP | F_ISO_TOP_L, F_ISO_TOP_L | F_ISO_BOT, F_ISO_BOT
  | F_ISO_BOT_L, F_ISO_BOT_L | LEVELS_B, LEVELS_B | LEVELS_B_L, LEVELS_B_L
  | SURFACE_B, SURFACE_B | SURFACE_B_L, SURFACE_B_L | G, G | G_L, G_L | COEF, COEF
  | COEF_L, COEF_L | OMEGA, OMEGA | OMEGA_L, OMEGA_L | LTAU, LTAU | LTAU_L, LTAU_L
  | BRDF, BRDF | BRDF_L, BRDF_L => true
  | _, _ => false
  end.
Definition mem (d : dep) (ds : list dep) : bool := existsb (dep_eqb d) ds.
(** The inputs that belong to a layer. *)
Definition per_layer (b : dep) : bool :=
  match b with G | G_L | COEF | COEF_L | OMEGA | OMEGA_L | LTAU | LTAU_L => true | _ => false end.

(** Legendre polynomials at the quadrature angles, the solar angle, the user angles. *)
Inductive yk := YP | Y0 | YU.
(** Phase vectors and matrices: vectors quadrature/sun and user/sun, matrices
    quadrature/quadrature and user/quadrature. *)
Inductive phk := Q0 | U0 | QQ | UQ.
(** The three adding drivers. *)
Inductive dir := Both | Top | Bottom.

(** A flag word; xrtm_interface.h, the fields dep_flags of xrtm_data.  [i4] is the Fourier term,
    [l] the layer. *)
Inductive fid := FUtaus | FChap | FY (w : yk) (i4 : nat) | FBound (i4 : nat) | FTotal (i4 : nat)
| FOpt (l : nat) | FBeam (l : nat) | FPh (k : phk) (i4 l : nat) | FLocal (i4 l : nat)
| FLayer (i4 l : nat).
(** A stored quantity: the scaled optical properties of a layer, the level depths, the user levels
    and their depths, Chapman factors, beam quantities of a level or layer, the recurrence factors
    and polynomials, phase, local, layer and total results and the boundary sources. *)
Inductive cid := CCoef (l : nat) | CCoefL (l : nat) | COmega (l : nat) | COmegaL (l : nat)
| CLtau (l : nat) | CLtauL (l : nat) | CTtau | CUlev | CUtau | CChap | CBtau (m : nat)
| CBtauL (m : nat) | CBtran (m : nat) | CBtranL (m : nat) | CAs (l : nat) | CAsL (l : nat)
| CAtran (l : nat) | CAtranL (l : nat) | CCd (w : yk) | CY (w : yk) (s : nat)
| CPh (k : phk) (i4 l : nat) | CLocal (i4 l : nat) | CLayer (i4 l : nat) | CTotal (i4 : nat)
| CBound (i4 : nat).
Definition yk_eqb (a b : yk) : bool :=
  match a, b with YP, YP | Y0, Y0 | YU, YU => true | _, _ => false end.
Definition phk_eqb (a b : phk) : bool :=
  match a, b with Q0, Q0 | U0, U0 | QQ, QQ | UQ, UQ => true | _, _ => false end.
Definition fid_eqb (a b : fid) : bool :=
  match a, b with
  | FUtaus, FUtaus | FChap, FChap => true
  | FY w i, FY w' i' => yk_eqb w w' && (i =? i')
  | FBound i, FBound i' | FTotal i, FTotal i' | FOpt i, FOpt i' | FBeam i, FBeam i' => i =? i'
  | FPh k i l, FPh k' i' l' => phk_eqb k k' && (i =? i') && (l =? l')
  | FLocal i l, FLocal i' l' | FLayer i l, FLayer i' l' => (i =? i') && (l =? l')
  | _, _ => false
  end.
Definition cid_eqb (a b : cid) : bool :=
  match a, b with
  | CTtau, CTtau | CUlev, CUlev | CUtau, CUtau | CChap, CChap => true
  | CCoef i, CCoef j | CCoefL i, CCoefL j | COmega i, COmega j | COmegaL i, COmegaL j
  | CLtau i, CLtau j | CLtauL i, CLtauL j | CBtau i, CBtau j | CBtauL i, CBtauL j
  | CBtran i, CBtran j | CBtranL i, CBtranL j | CAs i, CAs j | CAsL i, CAsL j
  | CAtran i, CAtran j | CAtranL i, CAtranL j | CTotal i, CTotal j | CBound i, CBound j => i =? j
  | CCd w, CCd w' => yk_eqb w w'
  | CY w i, CY w' j => yk_eqb w w' && (i =? j)
  | CPh k i l, CPh k' i' l' => phk_eqb k k' && (i =? i') && (l =? l')
  | CLocal i l, CLocal i' l' | CLayer i l, CLayer i' l' => (i =? i') && (l =? l')
  | _, _ => false
  end.

(** The options that decide what is cached and what is read, the number of layers, whether there
    are user angles ([o_umus]) and whether the handle was created with a solver of the two-stream
    kind ([o_two]) or the Pade kind ([o_pade]). *)
Record opts := { o_n : nat; o_delta_m : bool; o_calc : bool; o_psa : bool; o_sfi : bool; o_solar : bool;
  o_thermal : bool; o_scalar : bool; o_taus : bool; o_umus : bool; o_two : bool; o_pade : bool; o_tms : bool;
  o_conv : bool; o_save_leg : bool; o_save_phase : bool; o_save_local : bool; o_save_layer : bool;
  o_save_total : bool }.

Definition inp (V : Type) := dep -> nat -> V.

(** The arithmetic left open. *)
Record physics (V : Type) := {
  none : V;
  (* get_delta_m_f (158-183), delta_m_coef, delta_m_omega, delta_m_ltau (xrtm_utility.c 634-810) *)
  dm_f : V -> V; dm_f_l : V -> V -> V;
  dm_coef : V -> V -> V; dm_coef_l : V -> V -> V -> V -> V;
  dm_omega : V -> V -> V; dm_omega_l : V -> V -> V -> V -> V;
  dm_ltau : V -> V -> V -> V; dm_ltau_l : V -> V -> V -> V -> V -> V -> V;
  (* update_utaus (209-247): sums, location of the levels, scaling *)
  t_sum : list V -> V; t_lev : V -> V -> V; t_scale : V -> list V -> list V -> V;
  (* chapman_functions (395) *)
  chap : V -> V -> V -> V;
  (* the beam at the top (xrtm_interface.c 1832-1840) and one level down (434-467) *)
  tau0 : V; tau0_l : V; tran0 : V; tran0_l : V;
  b_pp : V -> V -> V -> V; b_pp_l : V -> V -> V -> V; b_psa : V -> list V -> V; b_psa_l : V -> list V -> V;
  tran : V -> V; tran_l : V -> V -> V; sec : V -> V -> V -> V; sec_l : V -> V -> V -> V -> V -> V;
  att : V -> V -> V; att_l : V -> V -> V -> V -> V -> V;
  (* leg_poly_assoc2 (misc/rtutil_math.c 553-608): the factors of one order, the polynomials *)
  cd0 : V; cd_step : nat -> V -> V; leg : nat -> V -> V -> V;
  (* the quadrature angles, with user angles appended, the direction of the sun *)
  quad : V; xquad : V -> V; neg : V -> V;
  (* phase_vecs_get (811-1026), phase_mats_get (1223-1448): build, symmetric form, norm check *)
  ph_raw : phk -> nat -> list V -> V; ph_sym : phk -> V -> V; ph_bad : phk -> nat -> V -> V -> bool;
  (* build_local_r_and_t, the test of line 2276, no_scatter_r_t_s, call_solver *)
  loc : nat -> list V -> V; thin : nat -> V -> V -> bool; lay0 : nat -> list V -> V;
  lay : nat -> nat -> list V -> V;
  (* the adding loops; boundary sources *)
  tot : dir -> nat -> list (list V) -> list V -> V; bnd : nat -> list V -> V;
  (* which results a boundary-value solver asks for (5080, 5087, 5108) *)
  small : nat -> bool; use_qq : nat -> bool; use_loc : nat -> bool;
  (* what is computed from the above and from the inputs *)
  r_bvp : nat -> nat -> inp V -> (nat -> V) -> list V -> option V;
  r_add : nat -> dir -> nat -> inp V -> (nat -> V) -> list V -> option V;
  r_sgl : inp V -> (nat -> V) -> list V -> option V;
  r_tms : inp V -> (nat -> V) -> list V -> option V;
  r_cor : nat -> inp V -> (nat -> V) -> list V -> option V }.

Arguments none {V}. Arguments dm_f {V}. Arguments dm_f_l {V}. Arguments dm_coef {V}. Arguments dm_coef_l {V}.
Arguments dm_omega {V}. Arguments dm_omega_l {V}. Arguments dm_ltau {V}. Arguments dm_ltau_l {V}.
Arguments t_sum {V}. Arguments t_lev {V}. Arguments t_scale {V}. Arguments chap {V}. Arguments tau0 {V}.
Arguments tau0_l {V}. Arguments tran0 {V}. Arguments tran0_l {V}. Arguments b_pp {V}. Arguments b_pp_l {V}.
Arguments b_psa {V}. Arguments b_psa_l {V}. Arguments tran {V}. Arguments tran_l {V}. Arguments sec {V}.
Arguments sec_l {V}. Arguments att {V}. Arguments att_l {V}. Arguments cd0 {V}. Arguments cd_step {V}.
Arguments leg {V}. Arguments quad {V}. Arguments xquad {V}. Arguments neg {V}. Arguments ph_raw {V}.
Arguments ph_sym {V}. Arguments ph_bad {V}. Arguments loc {V}. Arguments thin {V}. Arguments lay0 {V}.
Arguments lay {V}. Arguments tot {V}. Arguments bnd {V}. Arguments small {V}. Arguments use_qq {V}.
Arguments use_loc {V}. Arguments r_bvp {V}. Arguments r_add {V}. Arguments r_sgl {V}. Arguments r_tms {V}.
Arguments r_cor {V}.

Section Cache.
Context {V : Type}.

(** The inputs as last set ([sx]), the derivative flags as last summarized ([svf], layer n is the
    surface), the flag words, the stored quantities, order_p, order_0 and order_u ([None] is -1). *)
Record st := mk { sx : inp V; svf : nat -> V; sfl : fid -> dep -> bool; sca : cid -> V; sord : yk -> option nat }.

Definition put (c : cid) (v : V) (s : st) : st :=
  mk (sx s) (svf s) (sfl s) (fun c' => if cid_eqb c c' then v else sca s c') (sord s).
(** Assignments one after the other. *)
Definition assign (us : list (cid * (st -> V))) (s : st) : st :=
  fold_left (fun s u => put (fst u) (snd u s) s) us s.
(** dep_flags &= (deps ^ DEP_MASK_MASK) *)
Definition clear (f : fid) (ds : list dep) (s : st) : st :=
  mk (sx s) (svf s) (fun f' d => if fid_eqb f f' then sfl s f' d && negb (mem d ds) else sfl s f' d) (sca s) (sord s).
(** dep_flags & deps *)
Definition dirty (s : st) (f : fid) (ds : list dep) : bool := existsb (sfl s f) ds.
Definition set_ord (w : yk) (i : nat) (s : st) : st :=
  mk (sx s) (svf s) (sfl s) (sca s) (fun w' => if yk_eqb w w' then Some i else sord s w').

Definition M (A : Type) := st -> st * option A.
Definition ret {A} (a : A) : M A := fun s => (s, Some a).
Definition fail {A} : M A := fun s => (s, None).
Definition bind {A B} (m : M A) (k : A -> M B) : M B :=
  fun s => match m s with (s, Some a) => k a s | (s, None) => (s, None) end.
Definition act {A} (f : st -> st) (m : M A) : M A := fun s => m (f s).
Fixpoint mapM {A B} (f : A -> M B) (l : list A) : M (list B) :=
  match l with
  | [] => ret []
  | a :: l => bind (f a) (fun b => bind (mapM f l) (fun bs => ret (b :: bs)))
  end.
Definition onto (f : nat -> st -> st) (l : list nat) (s : st) : st := fold_left (fun s i => f i s) l s.

Section Code.
Variable (P : physics V) (o : opts).
Notation n := (o_n o).
Definition layers : list nat := seq 0 n.

(** An array of derivatives is there only with CALC_DERIVS. *)
Definition ifc (v : V) : V := if o_calc o then v else none P.

(** The scaled arrays are the input arrays themselves without DELTA_M (xrtm_interface.c 1259-1320). *)
Definition e_coef (s : st) (l : nat) : V := if o_delta_m o then sca s (CCoef l) else sx s COEF l.
Definition e_coef_l (s : st) (l : nat) : V := ifc (if o_delta_m o then sca s (CCoefL l) else sx s COEF_L l).
Definition e_omega (s : st) (l : nat) : V := if o_delta_m o then sca s (COmega l) else sx s OMEGA l.
Definition e_omega_l (s : st) (l : nat) : V := ifc (if o_delta_m o then sca s (COmegaL l) else sx s OMEGA_L l).
Definition e_ltau (s : st) (l : nat) : V := if o_delta_m o then sca s (CLtau l) else sx s LTAU l.
Definition e_ltau_l (s : st) (l : nat) : V := ifc (if o_delta_m o then sca s (CLtauL l) else sx s LTAU_L l).

(** xrtm_model.c 187-193 *)
Definition utaus_deps : list dep := [UTAUS; LTAU; COEF].
(** update_utaus, 197-251 *)
Definition update_utaus (s : st) : st :=
  if negb (o_taus o) then s else
  let F := sfl s FUtaus in
  let s := if F LTAU then put CTtau (t_sum P (map (sx s LTAU) layers)) s else s in
  let s := if F UTAUS || F LTAU then put CUlev (t_lev P (sx s UTAUS 0) (sca s CTtau)) s else s in
  let s := if o_delta_m o && (F UTAUS || F LTAU || F COEF)
           then put CUtau (t_scale P (sca s CUlev) (map (fun l => dm_f P (sx s COEF l)) layers) (map (sx s OMEGA) layers)) s
           else s in
  clear FUtaus utaus_deps s.
(** utaus2 is utaus20 without DELTA_M (xrtm_interface.c 1230-1233). *)
Definition e_utaus (s : st) : V :=
  if o_taus o then (if o_delta_m o then sca s CUtau else sca s CUlev) else sx s ULEVELS 0.

(** opt_props_deps, 255-266 *)
Definition opt_deps : list dep := [COEF; COEF_L; OMEGA; OMEGA_L; LTAU; LTAU_L] ++ utaus_deps.
(** One of the three properties in update_opt_props: a value flag renews value and derivatives, a derivative flag
    the derivatives (320-352). *)
Definition renew (c c_l : cid) (F F_l : bool) (v v_l : V) (s : st) : st :=
  if F then (if o_calc o then put c_l v_l (put c v s) else put c v s)
  else if o_calc o && F_l then put c_l v_l s else s.
(** update_opt_props, 270-360 *)
Definition update_opt_props (l : nat) (s : st) : st :=
  if negb (o_delta_m o) then s else
  if negb (dirty s (FOpt l) opt_deps) then s else
  let F := sfl s (FOpt l) in
  let x := sx s in
  let f := dm_f P (x COEF l) in
  let f_l := dm_f_l P (x COEF l) (x COEF_L l) in
  clear (FOpt l) opt_deps
    (renew (CLtau l) (CLtauL l) (F LTAU) (F LTAU_L) (dm_ltau P f (x OMEGA l) (x LTAU l))
       (dm_ltau_l P f f_l (x OMEGA l) (x OMEGA_L l) (x LTAU l) (x LTAU_L l))
    (renew (COmega l) (COmegaL l) (F OMEGA) (F OMEGA_L) (dm_omega P f (x OMEGA l))
       (dm_omega_l P f f_l (x OMEGA l) (x OMEGA_L l))
    (renew (CCoef l) (CCoefL l) (F COEF) (F COEF_L) (dm_coef P f (x COEF l))
       (dm_coef_l P f f_l (x COEF l) (x COEF_L l)) s))).
(** 364-370 *)
Definition update_opt_props_all : st -> st := onto update_opt_props layers.

(** 375-399 *)
Definition chap_deps : list dep := [MU_0; PLANET_R; LEVELS_Z].
Definition get_chapman (s : st) : st :=
  if dirty s FChap chap_deps
  then put CChap (chap P (sx s MU_0 0) (sx s PLANET_R 0) (sx s LEVELS_Z 0)) (clear FChap chap_deps s)
  else s.

(** 478-482 *)
Definition beam_deps : list dep := opt_deps ++ chap_deps ++ [MU_0; LTAU; LTAU_L].
(** One turn of the loop 429-469; [i] is the level above, the new level is i + 1.  The values and the
    derivatives: *)
Definition beam_values (i : nat) : list (cid * (st -> V)) :=
  [(CBtau (S i), fun s => if negb (o_psa o) then b_pp P (sca s (CBtau i)) (e_ltau s i) (sx s MU_0 0)
                          else b_psa P (sca s CChap) (map (e_ltau s) (seq 0 (S i))));
   (CBtran (S i), fun s => tran P (sca s (CBtau (S i))));
   (CAs i, fun s => sec P (sca s (CBtau (S i))) (sca s (CBtau i)) (e_ltau s i));
   (CAtran i, fun s => att P (e_ltau s i) (sca s (CAs i)))].
Definition beam_derivs (i : nat) : list (cid * (st -> V)) :=
  [(CBtauL (S i), fun s => if negb (o_psa o) then b_pp_l P (sca s (CBtauL i)) (e_ltau_l s i) (sx s MU_0 0)
                           else b_psa_l P (sca s CChap) (map (e_ltau_l s) (seq 0 (S i))));
   (CBtranL (S i), fun s => tran_l P (sca s (CBtauL (S i))) (sca s (CBtran (S i))));
   (CAsL i, fun s => sec_l P (sca s (CBtauL (S i))) (sca s (CBtauL i)) (sca s (CAs i)) (e_ltau_l s i) (e_ltau s i));
   (CAtranL i, fun s => att_l P (e_ltau_l s i) (sca s (CAs i)) (e_ltau s i) (sca s (CAsL i)) (sca s (CAtran i)))].
Definition beam_level (i : nat) (s : st) : st :=
  let s := assign (beam_values i) (update_opt_props i (clear (FBeam i) beam_deps s)) in
  if o_calc o then assign (beam_derivs i) s else s.
(** The first layer out of date among the first [m] (421-424); [m] when there is none. *)
Fixpoint first_dirty (s : st) (i k : nat) : nat :=
  match k with
  | 0 => i
  | S k => if dirty s (FBeam i) beam_deps then i else first_dirty s (S i) k
  end.
(** beam_params_update (406-471) as update_beam_params (486) *)
Definition update_beam_params (lev : nat) (s : st) : st :=
  if negb (o_solar o) then s else
  let m := if lev =? n then lev else S lev in
  let i := first_dirty s 0 m in
  let s := if o_psa o then get_chapman s else s in
  onto beam_level (seq i (m - i)) s.
(** 493-496 *)
Definition update_beam_params_all : st -> st := update_beam_params n.
(** The beam quantities are there only with a solar source. *)
Definition ifs (v : V) : V := if o_solar o then v else none P.

(** The angles of Y_p, Y_0 and Y_u (578-640). *)
Definition mus (s : st) (w : yk) : V :=
  match w with
  | YP => if o_sfi o then quad P else xquad P (sx s UMUS 0)
  | Y0 => neg P (sx s MU_0 0)
  | YU => sx s UMUS 0
  end.
(** 578-650: deps of Y_p, Y_0, Y_u *)
Definition y_deps (w : yk) : list dep :=
  match w with
  | YP => INIT :: if o_sfi o then [] else [UMUS]
  | Y0 => INIT :: MU_0 :: if o_sfi o then [] else [UMUS]
  | YU => [INIT; UMUS]
  end.
Definition slot (i4 : nat) : nat := if o_save_leg o then i4 else 0.
(** The turns of the loop 564-569 that renew the factors; each turn overwrites the polynomials of
    the one before, so only the last are kept. *)
Definition cd_turn (w : yk) (i : nat) (s : st) : st :=
  put (CCd w) (match i with 0 => cd0 P | _ => cd_step P i (sca s (CCd w)) end) s.
(** Y_x_get, 535-573 *)
Definition get_Y (w : yk) (i4 : nat) (s : st) : st :=
  let f := dirty s (FY w i4) (y_deps w) in
  let s := clear (FY w i4) (y_deps w) s in
  let same := match sord s w with Some k => k =? i4 | None => false end in
  let f := if o_save_leg o then f else f || negb same in
  if negb f then s else
  if same then put (CY w (slot i4)) (leg P i4 (sca s (CCd w)) (mus s w)) s
  else
    let k := match sord s w with Some k => if i4 <? k then 0 else S k | None => 0 end in
    let s := onto (cd_turn w) (seq k (S i4 - k)) s in
    set_ord w i4 (put (CY w (slot i4)) (leg P i4 (sca s (CCd w)) (mus s w)) s).
(** The polynomials are computed and read with PHASE_SCALAR only. *)
Definition want_Y (w : yk) (i4 : nat) (s : st) : st := if o_scalar o then get_Y w i4 s else s.
Definition e_Y (s : st) (w : yk) (i4 : nat) : V := if o_scalar o then sca s (CY w (slot i4)) else none P.

(** The angles on the two sides. *)
Definition side1 (k : phk) : yk := match k with Q0 | QQ => YP | U0 | UQ => YU end.
Definition side2 (k : phk) : yk := match k with Q0 | U0 => Y0 | QQ | UQ => YP end.
(** 1102, 1165, 1609, 1668 *)
Definition ph_deps (k : phk) : list dep :=
  match k with
  | Q0 => [MU_0; COEF; COEF_L] ++ if o_sfi o then [] else [UMUS]
  | U0 => [MU_0; UMUS; COEF; COEF_L]
  | QQ => [COEF; COEF_L] ++ if o_sfi o then [] else [UMUS]
  | UQ => [UMUS; COEF; COEF_L]
  end.
Definition ph_args (s : st) (k : phk) (i4 l : nat) : list V :=
  [sx s COEF l; e_coef s l; e_coef_l s l; ifc (svf s l); e_Y s (side1 k) i4; e_Y s (side2 k) i4;
   mus s (side1 k); mus s (side2 k)].
(** phase_vecs_get 811-1026, phase_mats_get 1223-1448: with SAVE_PHASE_MATS the flag word is tested and
    cleared first, the matrix is written, checked, and put into symmetric form. *)
Definition phase_get (k : phk) (i4 l : nat) : M V :=
  fun s =>
  let f := dirty s (FPh k i4 l) (ph_deps k) in
  let s := if o_save_phase o then clear (FPh k i4 l) (ph_deps k) s else s in
  if o_save_phase o && negb f then (s, Some (sca s (CPh k i4 l))) else
  let v := ph_raw P k i4 (ph_args s k i4 l) in
  let keep v s := if o_save_phase o then put (CPh k i4 l) v s else s in
  let s := keep v s in
  if ph_bad P k i4 (e_omega s l) v then (s, None) else
  let v := ph_sym P k v in
  (keep v s, Some v).
(** get_phase_vecs_q0 and the like, 1114-1720: the polynomials, the phase result; the scaled
    properties are read as they are. *)
Definition get_phase (k : phk) (i4 l : nat) : M V :=
  act (want_Y (side1 k) i4) (act (want_Y (side2 k) i4) (phase_get k i4 l)).
Definition get_phase_all (k : phk) (i4 : nat) : M (list V) :=
  act (want_Y (side1 k) i4) (act (want_Y (side2 k) i4) (mapM (phase_get k i4) layers)).

(** 1728-1733 *)
Definition local_deps : list dep := ph_deps QQ ++ [OMEGA; OMEGA_L].
(** get_local_r_t_u_w, 1737-1879 *)
Definition get_local (i4 l : nat) : M V :=
  fun s =>
  let f := dirty s (FLocal i4 l) local_deps in
  let s := if o_save_local o then clear (FLocal i4 l) local_deps s else s in
  if o_save_local o && negb f then (s, Some (sca s (CLocal i4 l))) else
  bind (act (update_opt_props l) (get_phase QQ i4 l))
    (fun p s =>
       let v := loc P i4 [e_omega s l; e_omega_l s l; p; ifc (svf s l); mus s YP] in
       (if o_save_local o then put (CLocal i4 l) v s else s, Some v)) s.

(** 2091-2106 *)
Definition layer_deps : list dep :=
  opt_deps ++ beam_deps ++ ph_deps Q0 ++ local_deps ++ if o_pade o then [PADE_PARAMS] else [].
(** get_layer_R_T_S_U_W_V, 2110-2346; [sv] is the solver. *)
Definition get_layer (sv i4 l : nat) : M V :=
  fun s =>
  let f := dirty s (FLayer i4 l) layer_deps in
  let s := if o_save_layer o then clear (FLayer i4 l) layer_deps s else s in
  if o_save_layer o && negb f then (s, Some (sca s (CLayer i4 l))) else
  let keep v s := if o_save_layer o then put (CLayer i4 l) v s else s in
  let s := update_opt_props l s in
  if thin P i4 (e_omega s l) (sx s COEF l) then
    let v := lay0 P i4 [e_ltau s l; e_ltau_l s l; ifc (svf s l); mus s YP] in
    (keep v s, Some v)
  else
    act (update_beam_params l)
           (bind (if o_solar o then get_phase Q0 i4 l else ret (none P))
             (fun q => bind (get_local i4 l) (fun r s =>
                let b v := if o_thermal o then v else none P in
                let v := lay P sv i4
                  [e_omega s l; e_omega_l s l; e_ltau s l; e_ltau_l s l;
                   ifs (sca s (CAs l)); ifs (ifc (sca s (CAsL l))); ifs (sca s (CAtran l)); ifs (ifc (sca s (CAtranL l)));
                   ifs (sx s F_0 0); b (sx s LEVELS_B l); b (sx s LEVELS_B (S l));
                   b (ifc (sx s LEVELS_B_L l)); b (ifc (sx s LEVELS_B_L (S l)));
                   sx s DOUB_D_TAU 0; (if o_pade o then sx s PADE_PARAMS 0 else none P);
                   (if o_pade o then sx s UMUS 0 else none P); q; r; ifc (svf s l); mus s YP] in
                (keep v s, Some v)))) s.

(** The boundary sources: deps 4161-4165, diff_bound_input_update 3912-4157, update_diff_bound_input
    4169-4185. *)
Definition bound_deps : list dep := opt_deps ++ beam_deps ++ [F_ISO_TOP; F_ISO_BOT; F_0; MU_0; BRDF; BRDF_L].
Definition get_bound (i4 : nat) (s : st) : st :=
  let s := update_beam_params n s in
  if dirty s (FBound i4) bound_deps then
    let s := clear (FBound i4) bound_deps s in
    let b v := if o_thermal o then v else none P in
    put (CBound i4)
      (bnd P i4 [sx s F_ISO_TOP 0; ifc (sx s F_ISO_TOP_L 0); sx s F_ISO_BOT 0; ifc (sx s F_ISO_BOT_L 0);
                 ifs (sx s MU_0 0); ifs (sx s F_0 0); ifs (sca s (CBtran n)); ifs (ifc (sca s (CBtranL n)));
                 sx s BRDF 0; ifc (sx s BRDF_L 0); b (sx s SURFACE_B 0); b (ifc (sx s SURFACE_B_L 0));
                 ifc (svf s n); sx s UMUS 0]) s
  else s.

(** 2522-2526; one turn of the adding loops (2666-2700, 2871-2930, 3380-3470). *)
Definition total_deps : list dep := layer_deps.
Definition add_turn (sv i4 l : nat) : M (list V) :=
  bind (get_layer sv i4 l)
    (fun v s => let s := update_beam_params l s in
                (s, Some [v; ifs (sca s (CBtran l)); ifs (ifc (sca s (CBtranL l))); ifc (svf s l)])).
(** get_total_R_T_S_U_W_V (3257-3483) and get_total_BOA_R_S_U_V (2532-2704) *)
Definition get_total (d : dir) (sv i4 : nat) : M V :=
  fun s =>
  let f := dirty s (FTotal i4) total_deps in
  let s := if o_save_total o then clear (FTotal i4) total_deps s else s in
  if o_save_total o && negb f then (s, Some (sca s (CTotal i4))) else
  bind (mapM (add_turn sv i4) layers)
    (fun ls s => let v := tot P d i4 ls [] in
                 (if o_save_total o then put (CTotal i4) v s else s, Some v)) s.
(** get_total_TOA_R_S_U_V (2711-2930): from the surface up, never saved. *)
Definition get_total_TOA (sv i4 : nat) : M V :=
  bind (mapM (add_turn sv i4) (rev layers))
    (fun ls s => (s, Some (tot P Bottom i4 ls [sx s BRDF 0; ifc (sx s BRDF_L 0); sca s (CBound i4); ifc (svf s n); sx s UMUS 0; sx s MU_0 0]))).

(** fourier_get_add_top_down (4496), _bottom_up (4609), _both_ways (4739) *)
Definition get_add (sv : nat) (d : dir) (i4 : nat) : M V :=
  match d with
  | Both => bind (get_total Both sv i4) (fun t s => let s := get_bound i4 s in
              (s, r_add P sv Both i4 (sx s) (svf s) [t; sca s (CBound i4); ifs (sca s (CBtran n)); ifs (ifc (sca s (CBtranL n)))]))
  | Top => act (get_bound i4) (bind (get_total Top sv i4) (fun t s =>
              (s, r_add P sv Top i4 (sx s) (svf s) [t; sca s (CBound i4); ifs (sca s (CBtran n)); ifs (ifc (sca s (CBtranL n)))])))
  | Bottom => act (get_bound i4) (bind (get_total_TOA sv i4) (fun t s =>
              (s, r_add P sv Bottom i4 (sx s) (svf s) [t; sca s (CBound i4); ifs (sca s (CBtran n)); ifs (ifc (sca s (CBtranL n)))])))
  end.

(** Everything a solver of the whole atmosphere is handed from the layer and level arrays. *)
Definition profile (s : st) : list V :=
  e_utaus s ::
  flat_map (fun l => [e_coef s l; e_coef_l s l; e_omega s l; e_omega_l s l; e_ltau s l; e_ltau_l s l;
                      ifs (sca s (CAs l)); ifs (ifc (sca s (CAsL l))); ifs (sca s (CAtran l)); ifs (ifc (sca s (CAtranL l)))]) layers ++
  flat_map (fun m => [ifs (sca s (CBtau m)); ifs (ifc (sca s (CBtauL m))); ifs (sca s (CBtran m)); ifs (ifc (sca s (CBtranL m)))]) (seq 0 (S n)).
Definition refresh (s : st) : st := update_beam_params_all (update_opt_props_all (update_utaus s)).
Definition opt_list (b : bool) (m : M (list V)) : M (list V) := if b then m else ret [].
(** fourier_get_bvp, 4960-5390 *)
Definition get_bvp (sv i4 : nat) : M V :=
  let big := negb (small P sv) in
  act refresh
    (bind (opt_list (big && o_solar o) (get_phase_all Q0 i4)) (fun q0 =>
     bind (opt_list (big && use_qq P sv) (get_phase_all QQ i4)) (fun qq =>
     bind (opt_list (big && o_solar o && o_sfi o && o_umus o) (get_phase_all U0 i4)) (fun u0 =>
     bind (opt_list (big && o_sfi o && o_umus o) (get_phase_all UQ i4)) (fun uq =>
     bind (opt_list (big && use_loc P sv) (mapM (get_local i4) layers)) (fun lc s =>
       let s := if o_two o then s else get_bound i4 s in
       (s, r_bvp P sv i4 (sx s) (svf s)
             (profile s ++ q0 ++ qq ++ u0 ++ uq ++ lc ++ (if o_two o then [] else [sca s (CBound i4)]))))))))).

(** get_single, 4231-4480; refresh and boundary sources at 4342-4348 *)
Definition get_single : M V :=
  act refresh (act (get_bound 0) (fun s => (s, r_sgl P (sx s) (svf s) (profile s ++ [sca s (CBound 0)])))).
(** apply_corrections_radiance, 5510-5820 *)
Definition corrections : M (list V) :=
  if o_tms o && o_solar o
  then act refresh (act (get_bound 0) (fun s =>
         (s, match r_tms P (sx s) (svf s) (profile s ++ [sca s (CBound 0)]) with Some v => Some [v] | None => None end)))
  else ret [].
(** apply_corrections_fourier, 5828-6000; the user levels are read as they are. *)
Definition corrections_fourier (i4 : nat) : M (list V) :=
  if o_tms o && o_solar o && o_conv o
  then act update_opt_props_all (act update_beam_params_all
         (bind (get_phase_all Q0 i4) (fun q0 =>
          bind (opt_list (o_sfi o && o_umus o) (get_phase_all U0 i4)) (fun u0 =>
          act (get_bound i4) (fun s =>
            (s, match r_cor P i4 (sx s) (svf s) (profile s ++ q0 ++ u0 ++ [sca s (CBound i4)]) with Some v => Some [v] | None => None end))))))
  else ret [].

(** A solution: the correction, then the first [k] Fourier terms, each followed by its correction
    (get_solution_internal 6113-6389, get_fourier 5399-5500); how many terms are taken is decided
    from their values. *)
Inductive how := Bvp (sv : nat) | Add (sv : nat) (d : dir) | Single.
Definition terms (h : how) (k : nat) : M (list (list V)) :=
  match h with
  | Single => bind get_single (fun v => ret [[v]])
  | Bvp sv => mapM (fun i4 => bind (get_bvp sv i4) (fun v => bind (corrections_fourier i4) (fun c => ret (v :: c)))) (seq 0 k)
  | Add sv d => mapM (fun i4 => bind (get_add sv d i4) (fun v => bind (corrections_fourier i4) (fun c => ret (v :: c)))) (seq 0 k)
  end.
Definition solve (h : how) (k : nat) : M (list (list V)) :=
  bind corrections (fun c => bind (terms h k) (fun ts => ret (c :: ts))).

(** The setters.  [raises] are the bits a setter raises: set_coef (4079-4092), set_coef_l (4219-4226), set_omega
    (4327-4338), set_omega_l (4396-4401), and one bit each for the others.  The solvers of the project are
    always among those compiled in. *)
Definition raises (b : dep) : list dep :=
  match b with
  | COEF => COEF :: if o_delta_m o then OMEGA :: LTAU :: if o_calc o then [COEF_L; OMEGA_L; LTAU_L] else [] else []
  | COEF_L => COEF_L :: if o_delta_m o then [OMEGA_L; LTAU_L] else []
  | OMEGA => OMEGA :: if o_delta_m o then LTAU :: if o_calc o then [OMEGA_L; LTAU_L] else [] else []
  | OMEGA_L => OMEGA_L :: if o_delta_m o then [LTAU_L] else []
  | b => [b]
  end.
(** set_deps, xrtm_interface.c 419-457, for the layers a <= l < e: the flag words of these layers, and those that
    belong to no layer. *)
Definition hit (a e : nat) (f : fid) : bool :=
  match f with
  | FOpt l | FBeam l | FPh _ _ l | FLocal _ l | FLayer _ l => (a <=? l) && (l <? e)
  | _ => true
  end.
Definition set_deps (ds : list dep) (a e : nat) (s : st) : st :=
  mk (sx s) (svf s) (fun f d => sfl s f d || (hit a e f && mem d ds)) (sca s) (sord s).
(** A setter of input [b]: for a layer input the layers a <= l < e get new values (the setters _1 have e = a + 1,
    the setters _n the whole range), any other input is replaced and all layers are flagged. *)
Definition set_input (b : dep) (a e : nat) (v : nat -> V) (s : st) : st :=
  if per_layer b
  then set_deps (raises b) a e
         (mk (fun b' l => if dep_eqb b b' && ((a <=? l) && (l <? e)) then v l else sx s b' l) (svf s) (sfl s) (sca s) (sord s))
  else set_deps (raises b) 0 n
         (mk (fun b' l => if dep_eqb b b' then v l else sx s b' l) (svf s) (sfl s) (sca s) (sord s)).
(** xrtm_clear_saved (4927) and the creation (1774): init_deps, 377-415. *)
Definition clear_saved (s : st) : st := mk (sx s) (svf s) (fun _ _ => true) (sca s) (sord s).
(** xrtm_update_varied_layers raises no bit. *)
Definition update_flags (v : nat -> V) (s : st) : st := mk (sx s) v (sfl s) (sca s) (sord s).
(** A new handle with the given inputs; what its arrays contain is arbitrary, but for the beam at the top
    (xrtm_interface.c 1774-1840). *)
Definition fresh (x : inp V) (vf : nat -> V) (junk : cid -> V) : st :=
  put (CBtau 0) (tau0 P) (put (CBtran 0) (tran0 P) (put (CBtauL 0) (tau0_l P) (put (CBtranL 0) (tran0_l P)
    (mk x vf (fun _ _ => true) junk (fun _ => None))))).
End Code.

(** xrtm_solution_2 and the functions like it switch CALC_DERIVS off while they run the solver. *)
Definition no_calc (o : opts) : opts :=
  Build_opts (o_n o) (o_delta_m o) false (o_psa o) (o_sfi o) (o_solar o) (o_thermal o) (o_scalar o) (o_taus o) (o_umus o)
    (o_two o) (o_pade o) (o_tms o) (o_conv o) (o_save_leg o) (o_save_phase o) (o_save_local o) (o_save_layer o) (o_save_total o).

(** The calls. *)
Inductive op :=
  Set_ (b : dep) (a e : nat) (v : nat -> V)
| Update (v : nat -> V)
| Clear
| Solve (h : how) (k : nat)
| Solve_no_calc (h : how) (k : nat).
Definition run (P : physics V) (o : opts) (c : op) (s : st) : st * option (list (list V)) :=
  match c with
  | Set_ b a e v => (set_input o b a e v s, Some [])
  | Update v => (update_flags v s, Some [])
  | Clear => (clear_saved s, Some [])
  | Solve h k => solve P o h k s
  | Solve_no_calc h k => solve P (no_calc o) h k s
  end.
End Cache.
