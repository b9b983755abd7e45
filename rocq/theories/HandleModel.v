(** Model of the stateful API of an xrtm handle: every setter, getter, the readiness gate,
    the solution entry points and xrtm_destroy's set-flag bookkeeping.
    Source: src/xrtm_interface.c (line numbers below refer to it unless another file is
    named), src/xrtm_support.c:137-188, src/xrtm_support.h:161-205.

    The handle is a memory of typed cells.  An access outside an array's allocation, to a
    freed block or a read of a cell that was never written is the outcome [Undef].
    Not modelled: qw, qx_v, qw_v, alpha1/2 and the brdf auxiliary tables (written next to
    qx, never read back by the API), stderr text except for the name of a missing input,
    allocation failure. *)
From Coq Require Import ZArith NArith List Bool SpecFloat.
From Verif Require Import Base OptionsModel Dbl.
Import ListNotations.
Open Scope Z_scope.

(* ------------------------------------------------------------------------- *)
(** * Locations                                                               *)

(** The input fields of struct xrtm_data (src/xrtm.h), one constructor per field, array
    indices as arguments. *)
Inductive loc : Set :=
| DoubDTau | PadeS | PadeR | SosMaxOs | SosMaxTau | SosTol | FourierTol | Lambda | PlanetR
| LevelsZ (i : Z) | Ulevels (i : Z) | Utaus (i : Z) | Qx (i : Z)
| FIsoTop | FIsoTopL (i : Z) | FIsoBot | FIsoBotL (i : Z)
| F0 | Mu00 | Mu0 | Phi0
| LevelsB (i : Z) | LevelsBL (i j : Z) | SurfaceB | SurfaceBL (j : Z)
| NCoefLayer (i : Z) | NCoefLayer2 (i : Z)
| Coef0 (i j k : Z) | Coef0L (i j k l : Z)
| Omega0 (i : Z) | Omega0L (i j : Z) | Ltau0 (i : Z) | Ltau0L (i j : Z)
| KAmp (i : Z) | KPar (i j : Z) | KAmpL (i j : Z) | KParL (i j k : Z) | KFunc (i : Z)
| NFour2
(* set_flags_* *)
| FlDoub | FlPade | FlSos | FlFourierTol | FlLambda | FlPlanetR | FlLevelsZ | FlUlevels
| FlUtaus | FlUmus | FlFIsoTop | FlFIsoBot | FlF0 | FlMu0 | FlPhi0 | FlLevelsB | FlSurfaceB
| FlG (i : Z) | FlCoef (i : Z) | FlOmega (i : Z) | FlLtau (i : Z)
| FlKAmp (i : Z) | FlKPar (i j : Z) | FlKFunc (i : Z)
(* inputs_initialized, varied_layers_updated *)
| InputsInit | VariedUpd.

Inductive val : Set := VZ (z : Z) | VD (d : dbl).

(** The separately allocated set-flag arrays (1047-1056). *)
Inductive blk : Set := BG | BCoef | BOmega | BLtau | BKAmp | BKPar | BKFunc.

Definition blk_eqb (a b : blk) : bool :=
  match a, b with
  | BG, BG | BCoef, BCoef | BOmega, BOmega | BLtau, BLtau | BKAmp, BKAmp | BKPar, BKPar
  | BKFunc, BKFunc => true
  | _, _ => false
  end.

(** The dependency flags of the saved intermediate results (1062-1083). *)
Inductive dloc : Set :=
| DUtaus | DChapman | DYp (i : Z) | DY0 (i : Z) | DYu (i : Z) | DDiff (i : Z)
| DOpt (j : Z) | DBeam (j : Z) | DTotal (i : Z)
| DPqq (i j : Z) | DPuq (i j : Z) | DPq0 (i j : Z) | DPu0 (i j : Z)
| DLocal (i j : Z) | DLayer (i j : Z).

Record handle := mkH {
  h_cfg : config;              (* current d->options, d->n_derivs, ... *)
  h_alloc : config;            (* the configuration the arrays were allocated for *)
  h_mem : loc -> option val;   (* None: never written *)
  h_live : blk -> bool;
  h_dep : dloc -> N }.

(** Error values: XRTM_INT_ERROR, -1, XRTM_DBL_ERROR, XRTM_INT_ERROR returned from a
    function of type double; the [Missing] forms carry the input named on stderr by
    check_inputs_initialized. *)
Inductive errc : Set :=
| EInt | EM1 | EDbl | EIntD
| EMissingM1 (input : Z) | EMissingInt (input : Z).

Inductive res (A : Type) : Type :=
| Ret (a : A) (h : handle)
| Fail (e : errc) (h : handle)
| Undef.
Arguments Ret {A} _ _.
Arguments Fail {A} _ _.
Arguments Undef {A}.

Definition M (A : Type) : Type := handle -> res A.

Definition ret {A} (a : A) : M A := fun h => Ret a h.
Definition fail {A} (e : errc) : M A := fun h => Fail e h.
Definition undef {A} : M A := fun _ => Undef.
Definition bind {A B} (m : M A) (k : A -> M B) : M B :=
  fun h => match m h with
           | Ret a h' => k a h'
           | Fail e h' => Fail e h'
           | Undef => Undef
           end.
Notation "x <- m ;; k" := (bind m (fun x => k)) (at level 61, m at next level, right associativity).
Notation "m ;; k" := (bind m (fun _ => k)) (at level 61, right associativity).

(** [if (r = f()) return XRTM_INT_ERROR;] in the public wrappers of the *_x functions. *)
Definition wrap {A} (m : M A) : M A :=
  fun h => match m h with
           | Fail _ h' => Fail EInt h'
           | r => r
           end.

Definition in_range (i n : Z) : bool := (0 <=? i) && (i <? n).

(** i, i+1, ..., n-1: the values taken by [for (i = a; i < n; ++i)]. *)
Definition zseq (a n : Z) : list Z := map (fun k => a + Z.of_nat k) (seq 0 (Z.to_nat (n - a))).

Definition has_opt (c : config) (m : N) : bool := tst (c_options c) m.
Definition has_slv (c : config) (m : N) : bool := tst (c_solvers c) m.

(** src/xrtm_support.h:36-105: solver groups (USE_G is empty in the default build). *)
Definition SOLVERS_INTERNAL : N :=
  ors [SOLVER_DOUB_ADD; SOLVER_EIG_ADD; SOLVER_EIG_BVP; SOLVER_FOUR_STREAM; SOLVER_MEM_BVP;
       SOLVER_PADE_ADD; SOLVER_SINGLE; SOLVER_SIX_STREAM; SOLVER_SOS; SOLVER_TWO_OS;
       SOLVER_TWO_STREAM].
Definition SOLVERS_ALL : N := SOLVERS_INTERNAL.
Definition SOLVERS_USE_G : N := 0%N.
Definition SOLVERS_USE_COEF : N := SOLVERS_INTERNAL.
Definition SOLVERS_DOUBLING : N := SOLVER_DOUB_ADD.
Definition SOLVERS_ADDING : N := ors [SOLVER_DOUB_ADD; SOLVER_EIG_ADD; SOLVER_PADE_ADD].

(** Which cells exist: the allocations of xrtm_create_misc (1043-1327). *)
Definition acc (c : config) (live : blk -> bool) (l : loc) : bool :=
  let nl := c_n_layers c in let nd := c_n_derivs c in let nk := c_n_kernels c in
  let derivs := has_opt c OPT_CALC_DERIVS in
  match l with
  | LevelsZ i => has_opt c OPT_PSA && in_range i (nl + 1)                       (* 1215 *)
  | Ulevels i => in_range i (c_n_ulevels c)                                     (* 1219,1226 *)
  | Utaus i => negb (has_opt c OPT_OUTPUT_AT_LEVELS) && in_range i (c_n_ulevels c) (* 1227 *)
  | Qx i => in_range i (c_n_quad c + c_n_umus c)                                (* 1108 *)
  | FIsoTopL i | FIsoBotL i => derivs && in_range i nd                          (* 1290 *)
  | LevelsB i => has_opt c OPT_SOURCE_THERMAL && in_range i (nl + 1)            (* 1236 *)
  | LevelsBL i j => derivs && has_opt c OPT_SOURCE_THERMAL
                    && in_range i (nl + 1) && in_range j nd                     (* 1294 *)
  | SurfaceBL j => derivs && has_opt c OPT_SOURCE_THERMAL && in_range j nd      (* 1295 *)
  | NCoefLayer i | NCoefLayer2 i => has_slv c SOLVERS_USE_COEF && in_range i nl (* 1253 *)
  | Coef0 i j k => has_slv c SOLVERS_USE_COEF && in_range i nl
                   && in_range j (c_n_elem c) && in_range k (c_n_coef c)        (* 1256,1272 *)
  | Coef0L i d j k => derivs && has_slv c SOLVERS_USE_COEF && in_range i nl
                   && in_range d nd && in_range j (c_n_elem c)
                   && in_range k (c_n_coef c)                                   (* 1304,1319 *)
  | Omega0 i | Ltau0 i => in_range i nl                                         (* 1243-1267 *)
  | Omega0L i j | Ltau0L i j => derivs && in_range i nl && in_range j nd        (* 1298-1314 *)
  | KAmp i | KFunc i => in_range i nk                                           (* 1280,1282 *)
  | KPar i j => in_range i nk && in_range j 4                                   (* 1281 *)
  | KAmpL i j => derivs && in_range i nk && in_range j nd                       (* 1324 *)
  | KParL i j k => derivs && in_range i nk && in_range j nd && in_range k 4     (* 1326 *)
  | FlG i => live BG && in_range i nl                                           (* 1047-1055 *)
  | FlCoef i => live BCoef && in_range i nl
  | FlOmega i => live BOmega && in_range i nl
  | FlLtau i => live BLtau && in_range i nl
  | FlKAmp i => live BKAmp && in_range i nk
  | FlKPar i j => live BKPar && in_range i nk && in_range j 4
  | FlKFunc i => live BKFunc && in_range i nk
  | _ => true                                                                   (* scalar members *)
  end.

Definition loc_eq_dec : forall a b : loc, {a = b} + {a <> b}.
Proof. decide equality; apply Z.eq_dec. Defined.

(* ------------------------------------------------------------------------- *)
(** * Primitive actions                                                       *)

Definition cfg : M config := fun h => Ret (h_cfg h) h.

Definition rd (l : loc) : M val :=
  fun h => if acc (h_alloc h) (h_live h) l
           then match h_mem h l with Some v => Ret v h | None => Undef end
           else Undef.
Definition rdZ (l : loc) : M Z := v <- rd l;; match v with VZ z => ret z | VD _ => undef end.
Definition rdD (l : loc) : M dbl := v <- rd l;; match v with VD d => ret d | VZ _ => undef end.

Definition upd (f : loc -> option val) (l : loc) (v : val) : loc -> option val :=
  fun l' => if loc_eq_dec l l' then Some v else f l'.

Definition wr (l : loc) (v : val) : M unit :=
  fun h => if acc (h_alloc h) (h_live h) l
           then Ret tt (mkH (h_cfg h) (h_alloc h) (upd (h_mem h) l v) (h_live h) (h_dep h))
           else Undef.
Definition wrZ (l : loc) (z : Z) : M unit := wr l (VZ z).
Definition wrD (l : loc) (d : dbl) : M unit := wr l (VD d).

(** free(): freeing a block that is not live is undefined. *)
Definition free (b : blk) : M unit :=
  fun h => if h_live h b
           then Ret tt (mkH (h_cfg h) (h_alloc h) (h_mem h)
                            (fun b' => if blk_eqb b b' then false else h_live h b') (h_dep h))
           else Undef.

(** A caller's array: reading past its end is undefined. *)
Definition ua {A} (l : list A) (i : Z) : M A :=
  if i <? 0 then undef
  else match nth_error l (Z.to_nat i) with Some a => ret a | None => undef end.

Definition when (b : bool) (m : M unit) : M unit := if b then m else ret tt.
Definition reject_if (b : bool) (e : errc) : M unit := if b then fail e else ret tt.

(** for (i in l) body(i); *)
Fixpoint for_ {A} (l : list A) (body : A -> M unit) : M unit :=
  match l with
  | [] => ret tt
  | i :: l' => body i;; for_ l' body
  end.

(** Collect the values of a read loop. *)
Fixpoint collect {A} (l : list A) (body : A -> M val) : M (list val) :=
  match l with
  | [] => ret []
  | i :: l' => v <- body i;; vs <- collect l' body;; ret (v :: vs)
  end.

(* ------------------------------------------------------------------------- *)
(** * Dependency flags                                                        *)

(** src/xrtm.h: DEP_MASK_* *)
Definition DEP_DOUB_D_TAU : N := bit 1.
Definition DEP_PADE_PARAMS : N := bit 2.
Definition DEP_LAMBDA : N := bit 5.
Definition DEP_PLANET_R : N := bit 6.
Definition DEP_LEVELS_Z : N := bit 7.
Definition DEP_ULEVELS : N := bit 8.
Definition DEP_UTAUS : N := bit 9.
Definition DEP_UMUS : N := bit 10.
Definition DEP_F_0 : N := bit 11.
Definition DEP_MU_0 : N := bit 12.
Definition DEP_PHI_0 : N := bit 13.
Definition DEP_F_ISO_TOP : N := bit 14.
Definition DEP_F_ISO_TOP_L : N := bit 15.
Definition DEP_F_ISO_BOT : N := bit 16.
Definition DEP_F_ISO_BOT_L : N := bit 17.
Definition DEP_LEVELS_B : N := bit 18.
Definition DEP_LEVELS_B_L : N := bit 19.
Definition DEP_SURFACE_B : N := bit 20.
Definition DEP_SURFACE_B_L : N := bit 21.
Definition DEP_COEF : N := bit 24.
Definition DEP_COEF_L : N := bit 25.
Definition DEP_OMEGA : N := bit 26.
Definition DEP_OMEGA_L : N := bit 27.
Definition DEP_LTAU : N := bit 28.
Definition DEP_LTAU_L : N := bit 29.
Definition DEP_BRDF : N := bit 30.
Definition DEP_BRDF_L : N := bit 31.
(** DEP_MASK_MASK: all 32 bits of the int. *)
Definition DEP_MASK : N := N.pred (bit 32).

(** The flags written by init_deps / set_deps for layers [a, b). *)
Definition dep_hit (c : config) (a b : Z) (x : dloc) : bool :=
  let lay j := (a <=? j) && (j <? b) in
  let fou i := in_range i (c_n_four c) in
  match x with
  | DUtaus | DChapman => true
  | DYp i | DY0 i | DYu i | DDiff i | DTotal i => fou i
  | DOpt j | DBeam j => lay j
  | DPqq i j | DPuq i j | DPq0 i j | DPu0 i j | DLocal i j | DLayer i j => fou i && lay j
  end.

(** 377-415 *)
Definition init_deps (m : N) (a b : Z) : M unit :=
  fun h => Ret tt (mkH (h_cfg h) (h_alloc h) (h_mem h) (h_live h)
    (fun x => if dep_hit (h_cfg h) a b x then m else h_dep h x)).

(** 419-457 *)
Definition set_deps (m : N) (a b : Z) : M unit :=
  fun h => Ret tt (mkH (h_cfg h) (h_alloc h) (h_mem h) (h_live h)
    (fun x => if dep_hit (h_cfg h) a b x then N.lor (h_dep h x) m else h_dep h x)).

Definition set_deps_all (m : N) : M unit := c <- cfg;; set_deps m 0 (c_n_layers c).

(* ------------------------------------------------------------------------- *)
(** * Macros of src/xrtm_support.h:161-205                                    *)

Definition CHECK_N_KERNELS_NOT_ZERO (e : errc) : M unit :=
  c <- cfg;; reject_if (c_n_kernels c =? 0) e.
Definition CHECK_INIT_FOR_DERIVS : M unit :=
  c <- cfg;; reject_if (negb (has_opt c OPT_CALC_DERIVS)) EM1.
Definition CHECK_INDEX_RANGE (x n : Z) (e : errc) : M unit :=
  reject_if ((x <? 0) || (x >=? n)) e.
(** [d->inputs_initialized && ! FLAGS]: the flag is read only when inputs_initialized. *)
Definition GET_INPUTS_CHECK_SET_FLAGS (fl : loc) (e : errc) : M unit :=
  i <- rdZ InputsInit;;
  if i =? 0 then ret tt else f <- rdZ fl;; reject_if (f =? 0) e.

Definition need_opt (m : N) (e : errc) : M unit :=
  c <- cfg;; reject_if (negb (has_opt c m)) e.
Definition need_slv (m : N) (e : errc) : M unit :=
  c <- cfg;; reject_if (negb (has_slv c m)) e.

Definition set_elem_flag (fl : loc) : M unit :=
  i <- rdZ InputsInit;; when (negb (i =? 0)) (wrZ fl 1).

(** src/xrtm_brdf.c:76-86; d->kernels[i] outside the array is undefined. *)
Definition kernel_at (i : Z) : M Z := c <- cfg;; ua (c_kernels c) i.
Definition n_params_kernel : list Z := [0; 4; 0; 2; 2; 0; 0; 3; 3; 2; 4].
Definition kernel_n_params (t : Z) : Z :=
  if kernel_is_valid t then nth (Z.to_nat t) n_params_kernel (-1) else -1.
Definition KERNEL_USER_DEFINED : Z := 10.

Definition one (m : M val) : M (list val) := v <- m;; ret [v].
Definition done (m : M unit) : M (list val) := m;; ret [].

Section WithTrig.
(** cos(x*D2R) and acos(x)*R2D of the C library. *)
Variables cosd acosd : dbl -> dbl.

(* ------------------------------------------------------------------------- *)
(** * Readiness                                                               *)

(** One test of check_inputs_initialized: the input code if the flag is clear, else 0. *)
Definition req (cond : bool) (fl : loc) (code : Z) : M Z :=
  if cond then f <- rdZ fl;; ret (if f =? 0 then code else 0) else ret 0.

Fixpoint first_missing (l : list (M Z)) : M Z :=
  match l with
  | [] => ret 0
  | m :: l' => r <- m;; if r =? 0 then first_missing l' else ret r
  end.

(** Input codes, src/xrtm_interface.h the INPUT enum. *)
Definition reqs_scalar (c : config) : list (M Z) :=
  [ req (has_slv c SOLVERS_DOUBLING) FlDoub 1;            (* 2429 *)
    req (has_slv c SOLVER_PADE_ADD) FlPade 2;             (* 2436 *)
    req (has_slv c SOLVER_SOS) FlSos 3;                   (* 2443 *)
    req true FlFourierTol 4;                              (* 2450 *)
    req (has_opt c OPT_PSA) FlPlanetR 6;                  (* 2463 *)
    req (has_opt c OPT_PSA) FlLevelsZ 7;                  (* 2467 *)
    req (has_opt c OPT_OUTPUT_AT_LEVELS) FlUlevels 8;     (* 2473 *)
    req (has_opt c OPT_OUTPUT_AT_TAUS) FlUtaus 9;         (* 2478 *)
    req (c_n_umus c >? 0) FlUmus 10;                      (* 2483 *)
    req true FlFIsoTop 11;                                (* 2488 *)
    req true FlFIsoBot 13;                                (* 2493 *)
    req (has_opt c OPT_SOURCE_SOLAR) FlF0 15;             (* 2499 *)
    req (has_opt c OPT_SOURCE_SOLAR) FlMu0 16;            (* 2504 *)
    req (has_opt c OPT_SOURCE_SOLAR) FlPhi0 17;           (* 2509 *)
    req (has_opt c OPT_SOURCE_THERMAL) FlLevelsB 18;      (* 2516 *)
    req (has_opt c OPT_SOURCE_THERMAL) FlSurfaceB 20 ].   (* 2521 *)

Definition reqs_layer (c : config) (i : Z) : list (M Z) :=
  [ req (has_slv c SOLVERS_USE_G) (FlG i) 22;             (* 2528 *)
    req (has_slv c SOLVERS_USE_COEF) (FlCoef i) 24;       (* 2534 *)
    req true (FlOmega i) 26;                              (* 2540 *)
    req true (FlLtau i) 28 ].                             (* 2544 *)

Definition reqs_kernel (i : Z) : M Z :=
  first_missing
    [ req true (FlKAmp i) 30;                             (* 2551 *)
      (t <- kernel_at i;;                                 (* 2556-2563 *)
       first_missing (map (fun j => req true (FlKPar i j) 32) (zseq 0 (kernel_n_params t))));
      (t <- kernel_at i;;                                 (* 2565 *)
       req (t =? KERNEL_USER_DEFINED) (FlKFunc i) 34) ].

(** 2423-2586.  Result: 0 or the code of the first missing input. *)
Definition check_inputs_initialized : M Z :=
  c <- cfg;;
  r <- first_missing
         (reqs_scalar c ++ concat (map (reqs_layer c) (zseq 0 (c_n_layers c)))
          ++ map reqs_kernel (zseq 0 (c_n_kernels c)));;
  if negb (r =? 0) then ret r else
  free BG;; free BCoef;; free BOmega;; free BLtau;;       (* 2573-2576 *)
  when (c_n_kernels c >? 0) (free BKAmp;; free BKPar);;   (* 2578-2581 *)
  wrZ InputsInit 0;;                                      (* 2583 *)
  ret 0.

(** 2599-2601: a += ltau0[i] *)
Fixpoint sum_ltau (l : list Z) (a : dbl) : M dbl :=
  match l with
  | [] => ret a
  | i :: l' => x <- rdD (Ltau0 i);; sum_ltau l' (dadd a x)
  end.

(** 2590-2617 *)
Definition check_inputs_post_checks : M unit :=
  c <- cfg;;
  f <- (fun h => Ret (h_dep h DUtaus) h);;
  when (has_opt c OPT_OUTPUT_AT_TAUS && tst f (N.lor DEP_UTAUS DEP_LTAU)) (
    a <- sum_ltau (zseq 0 (c_n_layers c)) d_zero;;
    u0 <- rdD (Utaus 0);;
    reject_if (dlt u0 d_zero || dgt u0 a) EM1;;
    for_ (zseq 1 (c_n_ulevels c)) (fun i =>
      u <- rdD (Utaus i);; v <- rdD (Utaus (i - 1));;
      reject_if (dle u v || dgt u a) EM1)).

(** 2621-2643 (SOLUTION_PREPROCESS turns every failure into -1). *)
Definition solution_preprocess : M unit :=
  i <- rdZ InputsInit;;
  (if negb (i =? 0) then
     r <- check_inputs_initialized;; reject_if (negb (r =? 0)) (EMissingM1 r)
   else ret tt);;
  check_inputs_post_checks;;
  c <- cfg;;
  when (has_opt c OPT_CALC_DERIVS) (v <- rdZ VariedUpd;; reject_if (negb (v =? 0)) EM1).

(* ------------------------------------------------------------------------- *)
(** * Adjusting mu_0                                                          *)

(** 2663-2675, [count] is the running count. *)
Fixpoint adjust_loop (l : list Z) (count : Z) : M Z :=
  match l with
  | [] => ret count
  | i :: l' =>
      q <- rdD (Qx i);; m <- rdD Mu00;;
      let a := dabs (singularity_adjust_auto q m d_1em5) in
      (if negb (deq a m) then
         wrD Mu0 a;;
         if count + 1 >? 1 then fail EM1 else adjust_loop l' (count + 1)
       else if count >? 1 then fail EM1 else adjust_loop l' count)
  end.

(** 2650-2681 *)
Definition mu_0_singularity_adjust : M unit :=
  c <- cfg;;
  m <- rdD Mu00;; wrD Mu0 m;;
  u <- rdZ FlUmus;;
  n <- adjust_loop (zseq 0 (if u =? 0 then c_n_quad c else c_n_quad c + c_n_umus c)) 0;;
  when (n >? 0) (set_deps_all DEP_MU_0).

(** 739-750; flag1/flag2 as in the C code, reads are lazy as in C. *)
Definition update_n_four2_m (flag1 flag2 : bool) : M unit :=
  c <- cfg;;
  r <- (if has_opt c OPT_NO_AZIMUTHAL
           || (negb (has_opt c OPT_SOURCE_SOLAR) && has_opt c OPT_SOURCE_THERMAL)
        then ret true
        else if negb (c_n_stokes c =? 1) then ret false
        else
          b1 <- (if flag1 then m <- rdD Mu00;; ret (deq m d_one) else ret false);;
          if b1 then ret true
          else if flag2 && (c_n_umus c =? 1)
          then m <- rdD (Qx (c_n_quad c));; ret (deq m d_one)
          else ret false);;
  wrZ NFour2 (if r then 1 else c_n_four c).

(* ------------------------------------------------------------------------- *)
(** * Scalar inputs                                                           *)

(** 2830-2845 *)
Definition set_doub_d_tau (x : dbl) : M unit :=
  reject_if (dle x d_zero) EInt;;
  wrD DoubDTau x;; wrZ FlDoub 1;; set_deps_all DEP_DOUB_D_TAU.
(** 2852-2862 *)
Definition get_doub_d_tau : M (list val) :=
  need_slv SOLVERS_DOUBLING EDbl;;
  GET_INPUTS_CHECK_SET_FLAGS FlDoub EDbl;;
  one (rd DoubDTau).

(** 2869-2891 (the range tests are commented out) *)
Definition set_pade_params (s r : Z) : M unit :=
  wrZ PadeS s;; wrZ PadeR r;; wrZ FlPade 1;; set_deps_all DEP_PADE_PARAMS.
(** 2898-2911 *)
Definition get_pade_params : M (list val) :=
  need_slv SOLVER_PADE_ADD EInt;;
  GET_INPUTS_CHECK_SET_FLAGS FlPade EInt;;
  a <- rd PadeS;; b <- rd PadeR;; ret [a; b].

(** 2918-2947 (set_deps is commented out) *)
Definition set_sos_params (n : Z) (t e : dbl) : M unit :=
  reject_if (n <=? 0) EInt;;
  reject_if (dle t d_zero) EInt;;
  reject_if (dlt e d_zero) EInt;;
  wrZ SosMaxOs n;; wrD SosMaxTau t;; wrD SosTol e;; wrZ FlSos 1.
(** 2951-2965 *)
Definition get_sos_params : M (list val) :=
  need_slv SOLVER_SOS EInt;;
  GET_INPUTS_CHECK_SET_FLAGS FlSos EInt;;
  a <- rd SosMaxOs;; b <- rd SosMaxTau;; d <- rd SosTol;; ret [a; b; d].

(** 2972-2985 *)
Definition set_fourier_tol (x : dbl) : M unit :=
  reject_if (dlt x d_zero) EInt;; wrD FourierTol x;; wrZ FlFourierTol 1.
(** 2989-2994 *)
Definition get_fourier_tol : M (list val) :=
  GET_INPUTS_CHECK_SET_FLAGS FlFourierTol EDbl;; one (rd FourierTol).

(** 3001-3021 *)
Definition set_lambda (x : dbl) : M unit :=
  need_opt OPT_SOURCE_THERMAL EInt;;
  reject_if (dle x d_zero) EInt;;
  wrD Lambda x;; wrZ FlLambda 1;; set_deps_all DEP_LAMBDA.
(** 3025-3035 *)
Definition get_lambda : M (list val) :=
  need_opt OPT_SOURCE_THERMAL EDbl;;
  GET_INPUTS_CHECK_SET_FLAGS FlLambda EDbl;; one (rd Lambda).

(** 3041-3061 *)
Definition set_planet_r (x : dbl) : M unit :=
  need_opt OPT_PSA EInt;;
  reject_if (dle x d_zero) EInt;;
  wrD PlanetR x;; wrZ FlPlanetR 1;; set_deps_all DEP_PLANET_R.
(** 3065-3075 *)
Definition get_planet_r : M (list val) :=
  need_opt OPT_PSA EDbl;;
  GET_INPUTS_CHECK_SET_FLAGS FlPlanetR EDbl;; one (rd PlanetR).

(** 3082-3115 *)
Definition set_levels_z (x : list dbl) : M unit :=
  need_opt OPT_PSA EInt;;
  c <- cfg;;
  for_ (zseq 1 (c_n_layers c + 1)) (fun i =>
    a <- ua x i;; b <- ua x (i - 1);; reject_if (dgt a b) EInt);;
  for_ (zseq 0 (c_n_layers c + 1)) (fun i => a <- ua x i;; wrD (LevelsZ i) a);;
  wrZ FlLevelsZ 1;; set_deps_all DEP_LEVELS_Z.
(** 3119-3134 *)
Definition get_levels_z : M (list val) :=
  need_opt OPT_PSA EInt;;
  GET_INPUTS_CHECK_SET_FLAGS FlLevelsZ EInt;;
  c <- cfg;;
  collect (zseq 0 (c_n_layers c + 1)) (fun i => rd (LevelsZ i)).

(** 3141-3196 *)
Definition set_out_levels (x : list Z) : M unit :=
  need_opt OPT_OUTPUT_AT_LEVELS EInt;;
  c <- cfg;;
  x0 <- ua x 0;;
  reject_if ((x0 <? 0) || (x0 >? c_n_layers c)) EInt;;
  for_ (zseq 1 (c_n_ulevels c)) (fun i =>
    a <- ua x i;; b <- ua x (i - 1);; reject_if ((a <=? b) || (a >? c_n_layers c)) EInt);;
  for_ (zseq 0 (Z.min 2 (c_n_ulevels c))) (fun i =>
    a <- ua x i;;
    reject_if (negb (a =? 0) && negb (a =? c_n_layers c)
               && negb (check_solvers_va (c_solvers c)
                          [SOLVER_DOUB_ADD; SOLVER_EIG_ADD; SOLVER_PADE_ADD; SOLVER_SOS;
                           SOLVER_TWO_OS; 0%N] =? 0)) EInt);;
  reject_if (has_opt c OPT_TOP_DOWN_ADDING && negb (x0 =? c_n_layers c)) EInt;;
  reject_if (has_opt c OPT_BOTTOM_UP_ADDING && negb (x0 =? 0)) EInt;;
  for_ (zseq 0 (c_n_ulevels c)) (fun i => a <- ua x i;; wrZ (Ulevels i) a);;
  wrZ FlUlevels 1;; set_deps_all DEP_ULEVELS.
(** 3200-3215 *)
Definition get_out_levels : M (list val) :=
  need_opt OPT_OUTPUT_AT_LEVELS EInt;;
  GET_INPUTS_CHECK_SET_FLAGS FlUlevels EInt;;
  c <- cfg;;
  collect (zseq 0 (c_n_ulevels c)) (fun i => rd (Ulevels i)).

(** 3222-3245: each element is stored before the next is tested *)
Definition set_out_taus (x : list dbl) : M unit :=
  need_opt OPT_OUTPUT_AT_TAUS EInt;;
  c <- cfg;;
  for_ (zseq 0 (c_n_ulevels c)) (fun i =>
    a <- ua x i;; reject_if (dlt a d_zero) EInt;; wrD (Utaus i) a);;
  wrZ FlUtaus 1;; set_deps_all DEP_UTAUS.
(** 3249-3264 *)
Definition get_out_taus : M (list val) :=
  need_opt OPT_OUTPUT_AT_TAUS EInt;;
  GET_INPUTS_CHECK_SET_FLAGS FlUtaus EInt;;
  c <- cfg;;
  collect (zseq 0 (c_n_ulevels c)) (fun i => rd (Utaus i)).

(** 3271-3335 *)
Definition set_out_thetas (x : list dbl) : M unit :=
  c <- cfg;;
  reject_if (c_n_umus c =? 0) EInt;;
  for_ (zseq 0 (c_n_umus c)) (fun i =>
    a <- ua x i;; reject_if (dlt a d_zero || dge a d_90) EInt);;
  for_ (zseq 0 (c_n_umus c)) (fun i => a <- ua x i;; wrD (Qx (c_n_quad c + i)) (cosd a));;
  wrZ FlUmus 1;;
  f <- rdZ FlMu0;;
  update_n_four2_m (negb (f =? 0)) true;;
  when (negb (f =? 0)) (wrap mu_0_singularity_adjust);;
  set_deps_all DEP_UMUS.
(** 3339-3358 *)
Definition get_out_thetas : M (list val) :=
  c <- cfg;;
  reject_if (c_n_umus c =? 0) EInt;;
  GET_INPUTS_CHECK_SET_FLAGS FlUmus EInt;;
  collect (zseq 0 (c_n_umus c)) (fun i => a <- rdD (Qx (c_n_quad c + i));; ret (VD (acosd a))).

(** 3365-3380, 3436-3451 *)
Definition set_F_iso_top (x : dbl) : M unit :=
  reject_if (dlt x d_zero) EInt;;
  wrD FIsoTop x;; wrZ FlFIsoTop 1;; set_deps_all DEP_F_ISO_TOP.
Definition set_F_iso_bot (x : dbl) : M unit :=
  reject_if (dlt x d_zero) EInt;;
  wrD FIsoBot x;; wrZ FlFIsoBot 1;; set_deps_all DEP_F_ISO_BOT.
(** 3384-3389, 3455-3460 *)
Definition get_F_iso_top : M (list val) :=
  GET_INPUTS_CHECK_SET_FLAGS FlFIsoTop EDbl;; one (rd FIsoTop).
Definition get_F_iso_bot : M (list val) :=
  GET_INPUTS_CHECK_SET_FLAGS FlFIsoBot EDbl;; one (rd FIsoBot).
(** 3393-3404, 3464-3475 *)
Definition set_F_iso_top_l_1 (i : Z) (x : dbl) : M unit :=
  CHECK_INIT_FOR_DERIVS;; c <- cfg;; CHECK_INDEX_RANGE i (c_n_derivs c) EInt;;
  wrD (FIsoTopL i) x;; set_deps_all DEP_F_ISO_TOP_L.
Definition set_F_iso_bot_l_1 (i : Z) (x : dbl) : M unit :=
  CHECK_INIT_FOR_DERIVS;; c <- cfg;; CHECK_INDEX_RANGE i (c_n_derivs c) EInt;;
  wrD (FIsoBotL i) x;; set_deps_all DEP_F_ISO_BOT_L.
(** 3408-3420, 3479-3491 *)
Definition set_F_iso_top_l_n (x : list dbl) : M unit :=
  CHECK_INIT_FOR_DERIVS;; c <- cfg;;
  for_ (zseq 0 (c_n_derivs c)) (fun i => a <- ua x i;; wrD (FIsoTopL i) a);;
  set_deps_all DEP_F_ISO_TOP_L.
Definition set_F_iso_bot_l_n (x : list dbl) : M unit :=
  CHECK_INIT_FOR_DERIVS;; c <- cfg;;
  for_ (zseq 0 (c_n_derivs c)) (fun i => a <- ua x i;; wrD (FIsoBotL i) a);;
  set_deps_all DEP_F_ISO_BOT_L.
(** 3424-3429, 3495-3500 *)
Definition get_F_iso_top_l (i : Z) : M (list val) :=
  c <- cfg;; CHECK_INDEX_RANGE i (c_n_derivs c) EDbl;; one (rd (FIsoTopL i)).
Definition get_F_iso_bot_l (i : Z) : M (list val) :=
  c <- cfg;; CHECK_INDEX_RANGE i (c_n_derivs c) EDbl;; one (rd (FIsoBotL i)).

(** 3507-3527 *)
Definition set_F_0 (x : dbl) : M unit :=
  need_opt OPT_SOURCE_SOLAR EInt;;
  reject_if (dlt x d_zero) EInt;;
  wrD F0 x;; wrZ FlF0 1;; set_deps_all DEP_F_0.
(** 3531-3541 *)
Definition get_F_0 : M (list val) :=
  need_opt OPT_SOURCE_SOLAR EDbl;; GET_INPUTS_CHECK_SET_FLAGS FlF0 EDbl;; one (rd F0).

(** 3548-3578 *)
Definition set_theta_0 (x : dbl) : M unit :=
  need_opt OPT_SOURCE_SOLAR EInt;;
  reject_if (dlt x d_zero || dge x d_90) EInt;;
  wrD Mu00 (cosd x);;
  u <- rdZ FlUmus;;
  update_n_four2_m true (negb (u =? 0));;
  wrap mu_0_singularity_adjust;;
  wrZ FlMu0 1;; set_deps_all DEP_MU_0.
(** 3582-3592 (the first error is XRTM_INT_ERROR returned as a double) *)
Definition get_theta_0 : M (list val) :=
  need_opt OPT_SOURCE_SOLAR EIntD;; GET_INPUTS_CHECK_SET_FLAGS FlMu0 EDbl;;
  m <- rdD Mu00;; ret [VD (acosd m)].

(** 3599-3613 *)
Definition set_phi_0 (x : dbl) : M unit :=
  wrD Phi0 x;; set_deps_all DEP_PHI_0;; wrZ FlPhi0 1.
(** 3617-3627 *)
Definition get_phi_0 : M (list val) := GET_INPUTS_CHECK_SET_FLAGS FlPhi0 EDbl;; one (rd Phi0).

(** 3634-3659 *)
Definition set_levels_b (x : list dbl) : M unit :=
  need_opt OPT_SOURCE_THERMAL EInt;;
  c <- cfg;;
  for_ (zseq 0 (c_n_layers c + 1)) (fun i => a <- ua x i;; reject_if (dlt a d_zero) EInt);;
  for_ (zseq 0 (c_n_layers c + 1)) (fun i => a <- ua x i;; wrD (LevelsB i) a);;
  wrZ FlLevelsB 1;; set_deps_all DEP_LEVELS_B.
(** 3663-3678 *)
Definition get_levels_b : M (list val) :=
  need_opt OPT_SOURCE_THERMAL EInt;; GET_INPUTS_CHECK_SET_FLAGS FlLevelsB EInt;;
  c <- cfg;;
  collect (zseq 0 (c_n_layers c + 1)) (fun i => rd (LevelsB i)).
(** 3682-3701 *)
Definition set_levels_b_l_1 (j : Z) (x : list dbl) : M unit :=
  need_opt OPT_SOURCE_THERMAL EInt;; CHECK_INIT_FOR_DERIVS;;
  c <- cfg;; CHECK_INDEX_RANGE j (c_n_derivs c) EInt;;
  for_ (zseq 0 (c_n_layers c + 1)) (fun i => a <- ua x i;; wrD (LevelsBL i j) a);;
  set_deps_all DEP_LEVELS_B_L.
(** 3705-3725 *)
Definition set_levels_b_l_n (x : list (list dbl)) : M unit :=
  need_opt OPT_SOURCE_THERMAL EInt;; CHECK_INIT_FOR_DERIVS;;
  c <- cfg;;
  for_ (zseq 0 (c_n_layers c + 1)) (fun i =>
    for_ (zseq 0 (c_n_derivs c)) (fun j =>
      row <- ua x i;; a <- ua row j;; wrD (LevelsBL i j) a));;
  set_deps_all DEP_LEVELS_B_L.
(** 3729-3744 *)
Definition get_levels_b_l (j : Z) : M (list val) :=
  need_opt OPT_SOURCE_THERMAL EDbl;;
  c <- cfg;; CHECK_INDEX_RANGE j (c_n_derivs c) EDbl;;
  collect (zseq 0 (c_n_layers c + 1)) (fun i => rd (LevelsBL i j)).

(** 3751-3771 *)
Definition set_surface_b (x : dbl) : M unit :=
  need_opt OPT_SOURCE_THERMAL EInt;;
  reject_if (dlt x d_zero) EInt;;
  wrD SurfaceB x;; wrZ FlSurfaceB 1;; set_deps_all DEP_SURFACE_B.
(** 3775-3785 *)
Definition get_surface_b : M (list val) :=
  need_opt OPT_SOURCE_THERMAL EIntD;; GET_INPUTS_CHECK_SET_FLAGS FlSurfaceB EDbl;;
  one (rd SurfaceB).
(** 3789-3805 *)
Definition set_surface_b_l_1 (j : Z) (x : dbl) : M unit :=
  need_opt OPT_SOURCE_THERMAL EInt;; CHECK_INIT_FOR_DERIVS;;
  c <- cfg;; CHECK_INDEX_RANGE j (c_n_derivs c) EInt;;
  wrD (SurfaceBL j) x;; set_deps_all DEP_SURFACE_B_L.
(** 3809-3826 *)
Definition set_surface_b_l_n (x : list dbl) : M unit :=
  need_opt OPT_SOURCE_THERMAL EInt;; CHECK_INIT_FOR_DERIVS;;
  c <- cfg;;
  for_ (zseq 0 (c_n_derivs c)) (fun j => a <- ua x j;; wrD (SurfaceBL j) a);;
  set_deps_all DEP_SURFACE_B_L.
(** 3830-3842 *)
Definition get_surface_b_l (j : Z) : M (list val) :=
  need_opt OPT_SOURCE_THERMAL EIntD;;
  c <- cfg;; CHECK_INDEX_RANGE j (c_n_derivs c) EDbl;; one (rd (SurfaceBL j)).

(* ------------------------------------------------------------------------- *)
(** * Asymmetry parameter: XRTM_SOLVERS_USE_G is empty, so every call stops at the solver
      test.  What follows the test in C is not modelled ([undef], shown unreachable).     *)

(** 3849-3905 *)
Definition set_g_x : M unit := need_slv SOLVERS_USE_G EM1;; undef.
(** 3909-3921, 4003-4014 *)
Definition get_g_x : M (list val) := need_slv SOLVERS_USE_G EDbl;; undef.
(** 3925-3999 *)
Definition set_g_x_l : M unit := CHECK_INIT_FOR_DERIVS;; need_slv SOLVERS_USE_G EM1;; undef.

(* ------------------------------------------------------------------------- *)
(** * Phase function coefficients                                             *)

(** DEP masks of 4079-4090. *)
Definition coef_deps (c : config) : N :=
  if has_slv c SOLVERS_INTERNAL && has_opt c OPT_DELTA_M then
    if has_opt c OPT_CALC_DERIVS
    then ors [DEP_COEF; DEP_OMEGA; DEP_LTAU; DEP_COEF_L; DEP_OMEGA_L; DEP_LTAU_L]
    else ors [DEP_COEF; DEP_OMEGA; DEP_LTAU]
  else DEP_COEF.

(** 4021-4095.  [n_coef_layer] is NULL or an array; [ii = i - i_layer]. *)
Definition set_coef_x (coef : list (list (list dbl))) (i_layer n_layers : Z)
           (n_coef_layer : option (list Z)) : M unit :=
  need_slv SOLVERS_USE_COEF EM1;;
  c <- cfg;;
  CHECK_INDEX_RANGE i_layer (c_n_layers c) EInt;;
  match n_coef_layer with
  | None => ret tt
  | Some ns => for_ (zseq i_layer n_layers) (fun i =>
      n <- ua ns (i - i_layer);; reject_if (n <? 0) EM1;; reject_if (n >? c_n_coef c) EM1)
  end;;
  for_ (zseq i_layer n_layers) (fun i =>
    match n_coef_layer with
    | None => wrZ (NCoefLayer i) (c_n_coef c);; wrZ (NCoefLayer2 i) (c_n_coef2 c)
    | Some ns => n <- ua ns (i - i_layer);;
                 wrZ (NCoefLayer i) n;; wrZ (NCoefLayer2 i) (Z.min n (c_n_coef2 c))
    end;;
    n <- rdZ (NCoefLayer i);;
    (if n >? 1 then
       m <- ua coef (i - i_layer);; r <- ua m 0;; a <- ua r 0;;
       reject_if (dgt (dabs (dsub d_one a)) d_eps) EM1
     else ret tt);;
    for_ (zseq 0 (c_n_elem c)) (fun j =>
      for_ (zseq 0 n) (fun k =>
        m <- ua coef (i - i_layer);; r <- ua m j;; a <- ua r k;; wrD (Coef0 i j k) a));;
    set_elem_flag (FlCoef i));;
  set_deps (coef_deps c) i_layer n_layers.

(** 4099-4114 *)
Definition set_coef_1 (i_layer n_coef : Z) (coef : list (list dbl)) : M unit :=
  wrap (set_coef_x [coef] i_layer (i_layer + 1) (if n_coef <? 0 then None else Some [n_coef])).
(** 4118-4126 *)
Definition set_coef_n (n_coef : option (list Z)) (coef : list (list (list dbl))) : M unit :=
  c <- cfg;; wrap (set_coef_x coef 0 (c_n_layers c) n_coef).
(** 4130-4142 *)
Definition get_n_coef (i : Z) : M (list val) :=
  need_slv SOLVERS_USE_COEF EInt;;
  GET_INPUTS_CHECK_SET_FLAGS (FlCoef i) EInt;;
  c <- cfg;; CHECK_INDEX_RANGE i (c_n_layers c) EInt;;
  one (rd (NCoefLayer i)).
(** 4146-4160 *)
Definition get_coef (i j k : Z) : M (list val) :=
  need_slv SOLVERS_USE_COEF EDbl;;
  GET_INPUTS_CHECK_SET_FLAGS (FlCoef i) EDbl;;
  c <- cfg;; CHECK_INDEX_RANGE i (c_n_layers c) EDbl;;
  CHECK_INDEX_RANGE j (c_n_elem c) EDbl;;
  n <- rdZ (NCoefLayer i);; CHECK_INDEX_RANGE k n EDbl;;
  one (rd (Coef0 i j k)).

(** 4219-4224 *)
Definition coef_l_deps (c : config) : N :=
  if has_slv c SOLVERS_INTERNAL && has_opt c OPT_DELTA_M
  then ors [DEP_COEF_L; DEP_OMEGA_L; DEP_LTAU_L] else DEP_COEF_L.

(** 4164-4229; [src ii jj k l] is the switch of 4192-4211. *)
Definition set_coef_x_l (src : Z -> Z -> Z -> Z -> M dbl) (i_layer n_layers i_deriv n_derivs : Z)
  : M unit :=
  CHECK_INIT_FOR_DERIVS;;
  need_slv SOLVERS_USE_COEF EM1;;
  c <- cfg;;
  CHECK_INDEX_RANGE i_layer (c_n_layers c) EInt;;
  CHECK_INDEX_RANGE i_deriv (c_n_derivs c) EInt;;
  for_ (zseq i_layer n_layers) (fun i =>
    for_ (zseq i_deriv n_derivs) (fun d =>
      for_ (zseq 0 (c_n_elem c)) (fun k =>
        n <- rdZ (NCoefLayer i);;
        for_ (zseq 0 n) (fun l =>
          a <- src (i - i_layer) (d - i_deriv) k l;; wrD (Coef0L i d k l) a))));;
  set_deps (coef_l_deps c) i_layer n_layers.

(** 4233-4277 *)
Definition set_coef_l_11 (i d : Z) (x : list (list dbl)) : M unit :=
  wrap (set_coef_x_l (fun _ _ k l => r <- ua x k;; ua r l) i (i + 1) d (d + 1)).
Definition set_coef_l_n1 (d : Z) (x : list (list (list dbl))) : M unit :=
  c <- cfg;;
  wrap (set_coef_x_l (fun ii _ k l => m <- ua x ii;; r <- ua m k;; ua r l)
          0 (c_n_layers c) d (d + 1)).
Definition set_coef_l_1n (i : Z) (x : list (list (list dbl))) : M unit :=
  c <- cfg;;
  wrap (set_coef_x_l (fun _ jj k l => m <- ua x jj;; r <- ua m k;; ua r l)
          i (i + 1) 0 (c_n_derivs c)).
Definition set_coef_l_nn (x : list (list (list (list dbl)))) : M unit :=
  c <- cfg;;
  wrap (set_coef_x_l (fun ii jj k l => p <- ua x ii;; m <- ua p jj;; r <- ua m k;; ua r l)
          0 (c_n_layers c) 0 (c_n_derivs c)).
(** 4281-4294 *)
Definition get_coef_l (i d j k : Z) : M (list val) :=
  need_slv SOLVERS_USE_COEF EDbl;;
  c <- cfg;; CHECK_INDEX_RANGE i (c_n_layers c) EDbl;;
  CHECK_INDEX_RANGE d (c_n_derivs c) EDbl;; CHECK_INDEX_RANGE j (c_n_elem c) EDbl;;
  n <- rdZ (NCoefLayer i);; CHECK_INDEX_RANGE k n EDbl;;
  one (rd (Coef0L i d j k)).

(* ------------------------------------------------------------------------- *)
(** * Layer scalars: src/xrtm_support.c:137-188                               *)

Definition set_layer_x (x : Z -> loc) (fl : Z -> loc) (v : list dbl) (i_layer n_layers : Z)
  : M unit :=
  for_ (zseq i_layer n_layers) (fun i =>
    a <- ua v (i - i_layer);; wrD (x i) a;; set_elem_flag (fl i)).

Definition set_layer_x_l (x : Z -> Z -> loc) (src : Z -> Z -> M dbl)
           (i_layer n_layers i_deriv n_derivs : Z) : M unit :=
  for_ (zseq i_layer n_layers) (fun i =>
    for_ (zseq i_deriv n_derivs) (fun j =>
      a <- src (i - i_layer) (j - i_deriv);; wrD (x i j) a)).

(** 4327-4336 *)
Definition omega_deps (c : config) : N :=
  if has_slv c SOLVERS_INTERNAL && has_opt c OPT_DELTA_M then
    if has_opt c OPT_CALC_DERIVS then ors [DEP_OMEGA; DEP_LTAU; DEP_OMEGA_L; DEP_LTAU_L]
    else ors [DEP_OMEGA; DEP_LTAU]
  else DEP_OMEGA.

(** 4301-4341 *)
Definition set_omega_x (v : list dbl) (i_layer n_layers : Z) : M unit :=
  c <- cfg;;
  CHECK_INDEX_RANGE i_layer (c_n_layers c) EInt;;
  for_ (zseq i_layer n_layers) (fun i =>
    a <- ua v (i - i_layer);; reject_if (dlt a d_zero || dgt a d_one) EM1);;
  set_layer_x Omega0 FlOmega v i_layer n_layers;;
  for_ (zseq i_layer n_layers) (fun i =>
    a <- rdD (Omega0 i);; wrD (Omega0 i) (singularity_adjust_down d_one a d_1em5));;
  set_deps (omega_deps c) i_layer n_layers.
(** 4345-4365 *)
Definition set_omega_1 (i : Z) (x : dbl) : M unit := wrap (set_omega_x [x] i (i + 1)).
Definition set_omega_n (x : list dbl) : M unit := c <- cfg;; wrap (set_omega_x x 0 (c_n_layers c)).
(** 4369-4376 *)
Definition get_omega (i : Z) : M (list val) :=
  GET_INPUTS_CHECK_SET_FLAGS (FlOmega i) EDbl;;
  c <- cfg;; CHECK_INDEX_RANGE i (c_n_layers c) EDbl;; one (rd (Omega0 i)).

(** Shared shape of 4380-4404 and 4531-4548. *)
Definition set_x_l (x : Z -> Z -> loc) (deps : config -> N) (src : Z -> Z -> M dbl)
           (i_layer n_layers i_deriv n_derivs : Z) : M unit :=
  CHECK_INIT_FOR_DERIVS;;
  c <- cfg;;
  CHECK_INDEX_RANGE i_layer (c_n_layers c) EInt;;
  CHECK_INDEX_RANGE i_deriv (c_n_derivs c) EInt;;
  set_layer_x_l x src i_layer n_layers i_deriv n_derivs;;
  set_deps (deps c) i_layer n_layers.

(** 4396-4399 *)
Definition omega_l_deps (c : config) : N :=
  if has_opt c OPT_DELTA_M then N.lor DEP_OMEGA_L DEP_LTAU_L else DEP_OMEGA_L.
Definition ltau_l_deps (c : config) : N := DEP_LTAU_L.

(** The four public forms 4408-4452 (omega) and 4552-4596 (ltau). *)
Definition set_x_l_11 (x : Z -> Z -> loc) deps (i j : Z) (v : dbl) : M unit :=
  wrap (set_x_l x deps (fun _ _ => ret v) i (i + 1) j (j + 1)).
Definition set_x_l_n1 (x : Z -> Z -> loc) deps (j : Z) (v : list dbl) : M unit :=
  c <- cfg;; wrap (set_x_l x deps (fun ii _ => ua v ii) 0 (c_n_layers c) j (j + 1)).
Definition set_x_l_1n (x : Z -> Z -> loc) deps (i : Z) (v : list dbl) : M unit :=
  c <- cfg;; wrap (set_x_l x deps (fun _ jj => ua v jj) i (i + 1) 0 (c_n_derivs c)).
Definition set_x_l_nn (x : Z -> Z -> loc) deps (v : list (list dbl)) : M unit :=
  c <- cfg;; wrap (set_x_l x deps (fun ii jj => r <- ua v ii;; ua r jj)
                     0 (c_n_layers c) 0 (c_n_derivs c)).
(** 4456-4462, 4600-4606 *)
Definition get_x_l (x : Z -> Z -> loc) (i j : Z) : M (list val) :=
  c <- cfg;; CHECK_INDEX_RANGE i (c_n_layers c) EDbl;;
  CHECK_INDEX_RANGE j (c_n_derivs c) EDbl;; one (rd (x i j)).

(** 4469-4492 *)
Definition set_ltau_x (v : list dbl) (i_layer n_layers : Z) : M unit :=
  c <- cfg;;
  CHECK_INDEX_RANGE i_layer (c_n_layers c) EInt;;
  for_ (zseq i_layer n_layers) (fun i =>
    a <- ua v (i - i_layer);; reject_if (dle a d_zero) EM1);;
  set_layer_x Ltau0 FlLtau v i_layer n_layers;;
  set_deps DEP_LTAU i_layer n_layers.
(** 4496-4516 *)
Definition set_ltau_1 (i : Z) (x : dbl) : M unit := wrap (set_ltau_x [x] i (i + 1)).
Definition set_ltau_n (x : list dbl) : M unit := c <- cfg;; wrap (set_ltau_x x 0 (c_n_layers c)).
(** 4520-4527 *)
Definition get_ltau (i : Z) : M (list val) :=
  GET_INPUTS_CHECK_SET_FLAGS (FlLtau i) EDbl;;
  c <- cfg;; CHECK_INDEX_RANGE i (c_n_layers c) EDbl;; one (rd (Ltau0 i)).

(* ------------------------------------------------------------------------- *)
(** * Surface kernels                                                         *)

(** 4613-4633 *)
Definition set_kernel_ampfac (i : Z) (x : dbl) : M unit :=
  CHECK_N_KERNELS_NOT_ZERO EInt;;
  c <- cfg;; CHECK_INDEX_RANGE i (c_n_kernels c) EInt;;
  reject_if (dlt x d_zero || dgt x d_one) EInt;;
  wrD (KAmp i) x;; set_elem_flag (FlKAmp i);; set_deps_all DEP_BRDF.
(** 4637-4646 *)
Definition get_kernel_ampfac (i : Z) : M (list val) :=
  CHECK_N_KERNELS_NOT_ZERO EDbl;;
  GET_INPUTS_CHECK_SET_FLAGS (FlKAmp i) EDbl;;
  c <- cfg;; CHECK_INDEX_RANGE i (c_n_kernels c) EDbl;; one (rd (KAmp i)).
(** 4650-4670 *)
Definition set_kernel_params_1 (i j : Z) (x : dbl) : M unit :=
  CHECK_N_KERNELS_NOT_ZERO EInt;;
  c <- cfg;; CHECK_INDEX_RANGE i (c_n_kernels c) EInt;;
  t <- kernel_at i;; CHECK_INDEX_RANGE j (kernel_n_params t) EInt;;
  wrD (KPar i j) x;; set_elem_flag (FlKPar i j);; set_deps_all DEP_BRDF.
(** 4674-4696 *)
Definition set_kernel_params_n (i : Z) (x : list dbl) : M unit :=
  CHECK_N_KERNELS_NOT_ZERO EInt;;
  c <- cfg;; CHECK_INDEX_RANGE i (c_n_kernels c) EInt;;
  t <- kernel_at i;;
  for_ (zseq 0 (kernel_n_params t)) (fun j =>
    a <- ua x j;; wrD (KPar i j) a;; set_elem_flag (FlKPar i j));;
  set_deps_all DEP_BRDF.
(** 4700-4715 *)
Definition get_kernel_params (i j : Z) : M (list val) :=
  CHECK_N_KERNELS_NOT_ZERO EDbl;;
  GET_INPUTS_CHECK_SET_FLAGS (FlKPar i j) EDbl;;
  c <- cfg;; CHECK_INDEX_RANGE i (c_n_kernels c) EDbl;;
  t <- kernel_at i;; CHECK_INDEX_RANGE j (kernel_n_params t) EDbl;;
  one (rd (KPar i j)).
(** 4719-4733 *)
Definition set_kernel_ampfac_l_1 (i d : Z) (x : dbl) : M unit :=
  CHECK_N_KERNELS_NOT_ZERO EInt;; CHECK_INIT_FOR_DERIVS;;
  c <- cfg;; CHECK_INDEX_RANGE i (c_n_kernels c) EInt;;
  CHECK_INDEX_RANGE d (c_n_derivs c) EInt;;
  wrD (KAmpL i d) x;; set_deps_all DEP_BRDF_L.
(** 4737-4753 *)
Definition set_kernel_ampfac_l_n (i : Z) (x : list dbl) : M unit :=
  CHECK_N_KERNELS_NOT_ZERO EInt;; CHECK_INIT_FOR_DERIVS;;
  c <- cfg;; CHECK_INDEX_RANGE i (c_n_kernels c) EInt;;
  for_ (zseq 0 (c_n_derivs c)) (fun d => a <- ua x d;; wrD (KAmpL i d) a);;
  set_deps_all DEP_BRDF_L.
(** 4757-4765 *)
Definition get_kernel_ampfac_l (i d : Z) : M (list val) :=
  CHECK_N_KERNELS_NOT_ZERO EDbl;;
  c <- cfg;; CHECK_INDEX_RANGE i (c_n_kernels c) EDbl;;
  CHECK_INDEX_RANGE d (c_n_derivs c) EDbl;; one (rd (KAmpL i d)).
(** 4769-4789 *)
Definition set_kernel_params_l_11 (i d p : Z) (x : dbl) : M unit :=
  CHECK_N_KERNELS_NOT_ZERO EInt;; CHECK_INIT_FOR_DERIVS;;
  c <- cfg;; CHECK_INDEX_RANGE i (c_n_kernels c) EInt;;
  t <- kernel_at i;;
  CHECK_INDEX_RANGE d (c_n_derivs c) EInt;; CHECK_INDEX_RANGE p (kernel_n_params t) EInt;;
  wrD (KParL i d p) x;; set_deps_all DEP_BRDF_L.
(** 4793-4814 *)
Definition set_kernel_params_l_1n (i d : Z) (x : list dbl) : M unit :=
  CHECK_N_KERNELS_NOT_ZERO EInt;; CHECK_INIT_FOR_DERIVS;;
  c <- cfg;; CHECK_INDEX_RANGE i (c_n_kernels c) EInt;;
  CHECK_INDEX_RANGE d (c_n_derivs c) EInt;;
  t <- kernel_at i;;
  for_ (zseq 0 (kernel_n_params t)) (fun p => a <- ua x p;; wrD (KParL i d p) a);;
  set_deps_all DEP_BRDF_L.
(** 4818-4840 *)
Definition set_kernel_params_l_n1 (i p : Z) (x : list dbl) : M unit :=
  CHECK_N_KERNELS_NOT_ZERO EInt;; CHECK_INIT_FOR_DERIVS;;
  c <- cfg;; CHECK_INDEX_RANGE i (c_n_kernels c) EInt;;
  t <- kernel_at i;; CHECK_INDEX_RANGE p (kernel_n_params t) EInt;;
  for_ (zseq 0 (c_n_derivs c)) (fun d => a <- ua x d;; wrD (KParL i d p) a);;
  set_deps_all DEP_BRDF_L.
(** 4844-4868 *)
Definition set_kernel_params_l_nn (i : Z) (x : list (list dbl)) : M unit :=
  CHECK_N_KERNELS_NOT_ZERO EInt;; CHECK_INIT_FOR_DERIVS;;
  c <- cfg;; CHECK_INDEX_RANGE i (c_n_kernels c) EInt;;
  t <- kernel_at i;;
  for_ (zseq 0 (c_n_derivs c)) (fun d =>
    for_ (zseq 0 (kernel_n_params t)) (fun p =>
      r <- ua x d;; a <- ua r p;; wrD (KParL i d p) a));;
  set_deps_all DEP_BRDF_L.
(** 4872-4886 *)
Definition get_kernel_params_l (i d p : Z) : M (list val) :=
  CHECK_N_KERNELS_NOT_ZERO EDbl;;
  c <- cfg;; CHECK_INDEX_RANGE i (c_n_kernels c) EDbl;;
  t <- kernel_at i;;
  CHECK_INDEX_RANGE d (c_n_derivs c) EDbl;; CHECK_INDEX_RANGE p (kernel_n_params t) EDbl;;
  one (rd (KParL i d p)).
(** 4890-4911; the two function pointers are an opaque token [f]. *)
Definition set_kernel_func (i f : Z) : M unit :=
  CHECK_N_KERNELS_NOT_ZERO EInt;;
  c <- cfg;; CHECK_INDEX_RANGE i (c_n_kernels c) EInt;;
  t <- kernel_at i;; reject_if (negb (t =? KERNEL_USER_DEFINED)) EInt;;
  wrZ (KFunc i) f;; set_elem_flag (FlKFunc i);; set_deps_all DEP_BRDF.

(** 4925-4928 *)
Definition clear_saved : M unit := c <- cfg;; init_deps DEP_MASK 0 (c_n_layers c).

(* ------------------------------------------------------------------------- *)
(** * Derivative structure and solutions                                      *)

(** 5347-5488: gate and bookkeeping.  The derivative flag tables are in DerivsModel, the
    stack chain in StackModel; both are written only here. *)
Definition update_varied_layers : M unit :=
  need_opt OPT_CALC_DERIVS EInt;;
  i <- rdZ InputsInit;;
  (if negb (i =? 0) then
     r <- check_inputs_initialized;; reject_if (negb (r =? 0)) (EMissingInt r)
   else ret tt);;
  wrZ VariedUpd 0.

(** Input cells a solver may read (src/xrtm_model.c); reading one that was never written is
    [Undef].  A superset of what any single solver reads. *)
Definition layer_cells (c : config) (i : Z) : list loc :=
  [Ltau0 i; Omega0 i].
Definition scalar_cells (c : config) : list loc :=
  [FourierTol; FIsoTop; FIsoBot; Phi0]
  ++ (if has_slv c SOLVERS_DOUBLING then [DoubDTau] else [])
  ++ (if has_slv c SOLVER_PADE_ADD then [PadeS; PadeR] else [])
  ++ (if has_slv c SOLVER_SOS then [SosMaxOs; SosMaxTau; SosTol] else [])
  ++ (if has_opt c OPT_PSA then PlanetR :: map LevelsZ (zseq 0 (c_n_layers c + 1)) else [])
  ++ (if has_opt c OPT_OUTPUT_AT_LEVELS then map Ulevels (zseq 0 (c_n_ulevels c)) else [])
  ++ (if has_opt c OPT_OUTPUT_AT_TAUS then map Utaus (zseq 0 (c_n_ulevels c)) else [])
  ++ map Qx (zseq 0 (c_n_quad c + c_n_umus c))
  ++ (if has_opt c OPT_SOURCE_SOLAR then [F0; Mu00; Mu0] else [])
  ++ (if has_opt c OPT_SOURCE_THERMAL
      then SurfaceB :: map LevelsB (zseq 0 (c_n_layers c + 1)) else []).

Definition read_coefs (c : config) (i : Z) : M unit :=
  if has_slv c SOLVERS_USE_COEF then
    n <- rdZ (NCoefLayer i);;
    for_ (zseq 0 (c_n_elem c)) (fun j => for_ (zseq 0 n) (fun k => rd (Coef0 i j k);; ret tt))
  else ret tt.
Definition read_kernel (i : Z) : M unit :=
  rd (KAmp i);;
  t <- kernel_at i;;
  for_ (zseq 0 (kernel_n_params t)) (fun j => rd (KPar i j);; ret tt);;
  (if t =? KERNEL_USER_DEFINED then rd (KFunc i);; ret tt else ret tt).

Definition read_inputs : M unit :=
  c <- cfg;;
  for_ (scalar_cells c) (fun l => rd l;; ret tt);;
  for_ (zseq 0 (c_n_layers c)) (fun i =>
    for_ (layer_cells c i) (fun l => rd l;; ret tt);; read_coefs c i);;
  for_ (zseq 0 (c_n_kernels c)) read_kernel.

(** What a solver run leaves behind on the handle: new dependency flags and, for output at
    optical depths, the level of each output (xrtm_model.c:197-251).  Success and these
    values are arbitrary parameters of the call, so theorems hold for every numerics. *)
Record solve_fx := { fx_ok : bool; fx_dep : dloc -> N; fx_lev : Z -> Z }.

Definition get_solution (fx : solve_fx) (e : errc) : M unit :=
  read_inputs;;
  c <- cfg;;
  (fun h => Ret tt (mkH (h_cfg h) (h_alloc h) (h_mem h) (h_live h) (fx_dep fx)));;
  when (has_opt c OPT_OUTPUT_AT_TAUS)
       (for_ (zseq 0 (c_n_ulevels c)) (fun i => wrZ (Ulevels i) (fx_lev fx i)));;
  reject_if (negb (fx_ok fx)) e.

(** Output masks, src/xrtm_interface.h. *)
Definition OUT_RADIANCE : N := bit 0.
Definition OUT_RADIANCE_MEAN : N := bit 1.
Definition OUT_FLUX : N := bit 2.
Definition OUT_FLUX_DIVERGENCE : N := bit 3.
Definition SOLUTION_ALL : N := ors [OUT_RADIANCE; OUT_RADIANCE_MEAN; OUT_FLUX; OUT_FLUX_DIVERGENCE].

(** 5651-5709 *)
Definition solution (solver solutions : N) (n_out_phis : Z) (fx : solve_fx) : M unit :=
  reject_if (negb (tst solver SOLVERS_ALL)) EInt;;
  c <- cfg;;
  reject_if (negb (tst solver (c_solvers c))) EInt;;
  reject_if (negb (tst solutions SOLUTION_ALL)) EInt;;
  reject_if (tst solutions OUT_RADIANCE && (n_out_phis <=? 0)) EInt;;
  reject_if (tst solutions OUT_RADIANCE_MEAN
             && negb (check_solvers_va solver [SOLVER_SINGLE; 0%N] =? 0)) EInt;;
  reject_if (tst solutions OUT_FLUX
             && negb (check_solvers_va solver [SOLVER_SINGLE; 0%N] =? 0)) EInt;;
  reject_if (tst solutions OUT_FLUX_DIVERGENCE
             && negb (check_solvers_va solver [SOLVER_SINGLE; 0%N] =? 0)) EInt;;
  solution_preprocess;;
  get_solution fx EInt.

(** 5716-5771: radiance, mean radiance, flux; flux divergence always fails. *)
Definition radiance (solver : N) (n : Z) (fx : solve_fx) := wrap (solution solver OUT_RADIANCE n fx).
Definition mean_radiance (solver : N) (fx : solve_fx) := wrap (solution solver OUT_RADIANCE_MEAN 0 fx).
Definition flux (solver : N) (fx : solve_fx) := wrap (solution solver OUT_FLUX 0 fx).
Definition flux_divergence : M unit := fail EInt.

(** 5556-5590 and 5597-5644: xrtm_pade_params, xrtm_local_r_t_u_w (gate and index checks). *)
Definition local_query (i_four i_layer : Z) (fx : solve_fx) : M unit :=
  solution_preprocess;;
  c <- cfg;;
  CHECK_INDEX_RANGE i_four (c_n_four c) EInt;;
  CHECK_INDEX_RANGE i_layer (c_n_layers c) EInt;;
  get_solution fx EInt.

Definition set_cfg (f : config -> config) : M unit :=
  fun h => Ret tt (mkH (f (h_cfg h)) (h_alloc h) (h_mem h) (h_live h) (h_dep h)).

Definition with_derivs (o : N) (nd : Z) (c : config) : config :=
  {| c_options := o; c_solvers := c_solvers c; c_n_coef := c_n_coef c;
     c_n_coef2 := c_n_coef2 c; c_n_four := c_n_four c; c_n_four2 := c_n_four2 c;
     c_n_elem := c_n_elem c; c_n_quad := c_n_quad c; c_n_stokes := c_n_stokes c;
     c_n_derivs := nd; c_n_layers := c_n_layers c; c_n_theta_0s := c_n_theta_0s c;
     c_n_kernels := c_n_kernels c; c_n_kernel_quad := c_n_kernel_quad c;
     c_kernels := c_kernels c; c_n_ulevels := c_n_ulevels c; c_n_umus := c_n_umus c;
     c_n_out_thetas_2 := c_n_out_thetas_2 c |}.

(** 5778-5992 xrtm_solution_2: no gate; d->options and d->n_derivs are changed around
    get_solution (5849-5863) and not restored when it fails.  The adjoint loop that follows
    (5865-5989) works on caller and work arrays; see Solution2Model. *)
Definition solution_2 (fx : solve_fx) : M unit :=
  c <- cfg;;
  reject_if (negb (has_opt c OPT_CALC_DERIVS)) EM1;;
  reject_if (negb (has_opt c OPT_REVERSE_DERIVS)) EM1;;
  set_cfg (with_derivs (N.lxor (c_options c) OPT_CALC_DERIVS) 0);;
  get_solution fx EM1;;
  set_cfg (with_derivs (c_options c) (c_n_derivs c)).

(** 2788-2796: only the upper bound is tested *)
Definition get_kernel (i : Z) : M (list val) :=
  c <- cfg;;
  reject_if (i >? c_n_kernels c - 1) EInt;;
  t <- kernel_at i;; ret [VZ t].

(** 5495-5505 *)
Definition get_qx : M (list val) :=
  c <- cfg;; collect (zseq 0 (c_n_quad c + c_n_umus c)) (fun i => rd (Qx i)).

Definition getc (f : config -> Z) : M (list val) := c <- cfg;; ret [VZ (f c)].

(* ------------------------------------------------------------------------- *)
(** * The API as one step function                                            *)

Inductive op : Type :=
| SetDoub (x : dbl) | GetDoub | SetPade (s r : Z) | GetPade
| SetSos (n : Z) (t e : dbl) | GetSos | SetFourierTol (x : dbl) | GetFourierTol
| SetLambda (x : dbl) | GetLambda | SetPlanetR (x : dbl) | GetPlanetR
| SetLevelsZ (x : list dbl) | GetLevelsZ | SetOutLevels (x : list Z) | GetOutLevels
| SetOutTaus (x : list dbl) | GetOutTaus | SetOutThetas (x : list dbl) | GetOutThetas
| SetFIsoTop (x : dbl) | GetFIsoTop | SetFIsoTopL1 (i : Z) (x : dbl)
| SetFIsoTopLn (x : list dbl) | GetFIsoTopL (i : Z)
| SetFIsoBot (x : dbl) | GetFIsoBot | SetFIsoBotL1 (i : Z) (x : dbl)
| SetFIsoBotLn (x : list dbl) | GetFIsoBotL (i : Z)
| SetF0 (x : dbl) | GetF0 | SetTheta0 (x : dbl) | GetTheta0 | SetPhi0 (x : dbl) | GetPhi0
| SetLevelsB (x : list dbl) | GetLevelsB | SetLevelsBL1 (j : Z) (x : list dbl)
| SetLevelsBLn (x : list (list dbl)) | GetLevelsBL (j : Z)
| SetSurfaceB (x : dbl) | GetSurfaceB | SetSurfaceBL1 (j : Z) (x : dbl)
| SetSurfaceBLn (x : list dbl) | GetSurfaceBL (j : Z)
| SetG (i : Z) (x : list dbl) | SetGL (i j : Z) (x : list dbl) | GetG (i : Z)
| SetCoef1 (i n : Z) (x : list (list dbl))
| SetCoefn (n : option (list Z)) (x : list (list (list dbl)))
| GetNCoef (i : Z) | GetCoef (i j k : Z)
| SetCoefL11 (i d : Z) (x : list (list dbl)) | SetCoefLn1 (d : Z) (x : list (list (list dbl)))
| SetCoefL1n (i : Z) (x : list (list (list dbl)))
| SetCoefLnn (x : list (list (list (list dbl)))) | GetCoefL (i d j k : Z)
| SetOmega1 (i : Z) (x : dbl) | SetOmegan (x : list dbl) | GetOmega (i : Z)
| SetOmegaL11 (i j : Z) (x : dbl) | SetOmegaLn1 (j : Z) (x : list dbl)
| SetOmegaL1n (i : Z) (x : list dbl) | SetOmegaLnn (x : list (list dbl)) | GetOmegaL (i j : Z)
| SetLtau1 (i : Z) (x : dbl) | SetLtaun (x : list dbl) | GetLtau (i : Z)
| SetLtauL11 (i j : Z) (x : dbl) | SetLtauLn1 (j : Z) (x : list dbl)
| SetLtauL1n (i : Z) (x : list dbl) | SetLtauLnn (x : list (list dbl)) | GetLtauL (i j : Z)
| SetKAmp (i : Z) (x : dbl) | GetKAmp (i : Z)
| SetKPar1 (i j : Z) (x : dbl) | SetKParn (i : Z) (x : list dbl) | GetKPar (i j : Z)
| SetKAmpL1 (i d : Z) (x : dbl) | SetKAmpLn (i : Z) (x : list dbl) | GetKAmpL (i d : Z)
| SetKParL11 (i d p : Z) (x : dbl) | SetKParL1n (i d : Z) (x : list dbl)
| SetKParLn1 (i p : Z) (x : list dbl) | SetKParLnn (i : Z) (x : list (list dbl))
| GetKParL (i d p : Z)
| SetKFunc (i f : Z)
| ClearSaved | UpdateVaried
| Solution (solver solutions : N) (n_phis : Z) (fx : solve_fx)
| Radiance (solver : N) (n_phis : Z) (fx : solve_fx)
| MeanRadiance (solver : N) (fx : solve_fx)
| Flux (solver : N) (fx : solve_fx)
| FluxDivergence
| LocalQuery (i_four i_layer : Z) (fx : solve_fx)
| Solution2 (fx : solve_fx)
| GetOptions | GetSolvers | GetMaxCoef | GetNQuad | GetNStokes | GetNElem | GetNDerivs
| GetNLayers | GetNKernels | GetNKernelQuad | GetKernel (i : Z) | GetNOutLevels
| GetNOutThetas | GetNOutThetas2 | GetQx.

Definition exec (o : op) : M (list val) :=
  match o with
  | SetDoub x => done (set_doub_d_tau x) | GetDoub => get_doub_d_tau
  | SetPade s r => done (set_pade_params s r) | GetPade => get_pade_params
  | SetSos n t e => done (set_sos_params n t e) | GetSos => get_sos_params
  | SetFourierTol x => done (set_fourier_tol x) | GetFourierTol => get_fourier_tol
  | SetLambda x => done (set_lambda x) | GetLambda => get_lambda
  | SetPlanetR x => done (set_planet_r x) | GetPlanetR => get_planet_r
  | SetLevelsZ x => done (set_levels_z x) | GetLevelsZ => get_levels_z
  | SetOutLevels x => done (set_out_levels x) | GetOutLevels => get_out_levels
  | SetOutTaus x => done (set_out_taus x) | GetOutTaus => get_out_taus
  | SetOutThetas x => done (set_out_thetas x) | GetOutThetas => get_out_thetas
  | SetFIsoTop x => done (set_F_iso_top x) | GetFIsoTop => get_F_iso_top
  | SetFIsoTopL1 i x => done (set_F_iso_top_l_1 i x)
  | SetFIsoTopLn x => done (set_F_iso_top_l_n x) | GetFIsoTopL i => get_F_iso_top_l i
  | SetFIsoBot x => done (set_F_iso_bot x) | GetFIsoBot => get_F_iso_bot
  | SetFIsoBotL1 i x => done (set_F_iso_bot_l_1 i x)
  | SetFIsoBotLn x => done (set_F_iso_bot_l_n x) | GetFIsoBotL i => get_F_iso_bot_l i
  | SetF0 x => done (set_F_0 x) | GetF0 => get_F_0
  | SetTheta0 x => done (set_theta_0 x) | GetTheta0 => get_theta_0
  | SetPhi0 x => done (set_phi_0 x) | GetPhi0 => get_phi_0
  | SetLevelsB x => done (set_levels_b x) | GetLevelsB => get_levels_b
  | SetLevelsBL1 j x => done (set_levels_b_l_1 j x)
  | SetLevelsBLn x => done (set_levels_b_l_n x) | GetLevelsBL j => get_levels_b_l j
  | SetSurfaceB x => done (set_surface_b x) | GetSurfaceB => get_surface_b
  | SetSurfaceBL1 j x => done (set_surface_b_l_1 j x)
  | SetSurfaceBLn x => done (set_surface_b_l_n x) | GetSurfaceBL j => get_surface_b_l j
  | SetG _ _ => done (wrap set_g_x) | SetGL _ _ _ => done (wrap set_g_x_l) | GetG _ => get_g_x
  | SetCoef1 i n x => done (set_coef_1 i n x) | SetCoefn n x => done (set_coef_n n x)
  | GetNCoef i => get_n_coef i | GetCoef i j k => get_coef i j k
  | SetCoefL11 i d x => done (set_coef_l_11 i d x) | SetCoefLn1 d x => done (set_coef_l_n1 d x)
  | SetCoefL1n i x => done (set_coef_l_1n i x) | SetCoefLnn x => done (set_coef_l_nn x)
  | GetCoefL i d j k => get_coef_l i d j k
  | SetOmega1 i x => done (set_omega_1 i x) | SetOmegan x => done (set_omega_n x)
  | GetOmega i => get_omega i
  | SetOmegaL11 i j x => done (set_x_l_11 Omega0L omega_l_deps i j x)
  | SetOmegaLn1 j x => done (set_x_l_n1 Omega0L omega_l_deps j x)
  | SetOmegaL1n i x => done (set_x_l_1n Omega0L omega_l_deps i x)
  | SetOmegaLnn x => done (set_x_l_nn Omega0L omega_l_deps x)
  | GetOmegaL i j => get_x_l Omega0L i j
  | SetLtau1 i x => done (set_ltau_1 i x) | SetLtaun x => done (set_ltau_n x)
  | GetLtau i => get_ltau i
  | SetLtauL11 i j x => done (set_x_l_11 Ltau0L ltau_l_deps i j x)
  | SetLtauLn1 j x => done (set_x_l_n1 Ltau0L ltau_l_deps j x)
  | SetLtauL1n i x => done (set_x_l_1n Ltau0L ltau_l_deps i x)
  | SetLtauLnn x => done (set_x_l_nn Ltau0L ltau_l_deps x)
  | GetLtauL i j => get_x_l Ltau0L i j
  | SetKAmp i x => done (set_kernel_ampfac i x) | GetKAmp i => get_kernel_ampfac i
  | SetKPar1 i j x => done (set_kernel_params_1 i j x)
  | SetKParn i x => done (set_kernel_params_n i x) | GetKPar i j => get_kernel_params i j
  | SetKAmpL1 i d x => done (set_kernel_ampfac_l_1 i d x)
  | SetKAmpLn i x => done (set_kernel_ampfac_l_n i x) | GetKAmpL i d => get_kernel_ampfac_l i d
  | SetKParL11 i d p x => done (set_kernel_params_l_11 i d p x)
  | SetKParL1n i d x => done (set_kernel_params_l_1n i d x)
  | SetKParLn1 i p x => done (set_kernel_params_l_n1 i p x)
  | SetKParLnn i x => done (set_kernel_params_l_nn i x)
  | GetKParL i d p => get_kernel_params_l i d p
  | SetKFunc i f => done (set_kernel_func i f)
  | ClearSaved => done clear_saved
  | UpdateVaried => done update_varied_layers
  | Solution s o n fx => done (solution s o n fx)
  | Radiance s n fx => done (radiance s n fx)
  | MeanRadiance s fx => done (mean_radiance s fx)
  | Flux s fx => done (flux s fx)
  | FluxDivergence => done flux_divergence
  | LocalQuery i j fx => done (local_query i j fx)
  | Solution2 fx => done (solution_2 fx)
  | GetOptions => getc (fun c => Z.of_N (c_options c))               (* 2688 *)
  | GetSolvers => getc (fun c => Z.of_N (c_solvers c))               (* 2698 *)
  | GetMaxCoef => getc c_n_coef | GetNQuad => getc c_n_quad          (* 2708, 2718 *)
  | GetNStokes => getc c_n_stokes | GetNElem => getc c_n_elem        (* 2728, 2738 *)
  | GetNDerivs => getc c_n_derivs | GetNLayers => getc c_n_layers    (* 2748, 2758 *)
  | GetNKernels => getc c_n_kernels                                  (* 2768 *)
  | GetNKernelQuad => getc c_n_kernel_quad                           (* 2778 *)
  | GetKernel i => get_kernel i                                      (* 2788 *)
  | GetNOutLevels => getc c_n_ulevels | GetNOutThetas => getc c_n_umus (* 2803, 2813 *)
  | GetNOutThetas2 => getc c_n_out_thetas_2                          (* 2820 *)
  | GetQx => get_qx                                                  (* 5495 *)
  end.

(** A history: calls in order; a failed call leaves the state it left. *)
Fixpoint run (ops : list op) (h : handle) : option handle :=
  match ops with
  | [] => Some h
  | o :: ops' => match exec o h with
                 | Ret _ h' | Fail _ h' => run ops' h'
                 | Undef => None
                 end
  end.

End WithTrig.

(* ------------------------------------------------------------------------- *)
(** * Creation and destruction                                                *)

(** Contents after xrtm_create_misc (1005, 1111-1123, 1219-1223, 1734-1825).
    [nodes] are the quadrature nodes computed by gauss_leg_quad / gauss_leg_quad2. *)
Definition mem0 (nodes : Z -> dbl) (c : config) (l : loc) : option val :=
  match l with
  | InputsInit | VariedUpd => Some (VZ 1)
  | FlDoub | FlPade | FlSos | FlFourierTol | FlLambda | FlPlanetR | FlLevelsZ | FlUlevels
  | FlUtaus | FlUmus | FlFIsoTop | FlFIsoBot | FlF0 | FlMu0 | FlPhi0 | FlLevelsB | FlSurfaceB
  | FlG _ | FlCoef _ | FlOmega _ | FlLtau _ | FlKAmp _ | FlKPar _ _ | FlKFunc _ => Some (VZ 0)
  | Phi0 => Some (VD d_zero)
  | Qx i => if in_range i (c_n_quad c) then Some (VD (nodes i)) else None
  | Ulevels i => if has_opt c OPT_OUTPUT_AT_LEVELS then
                   if i =? 0 then Some (VZ 0)
                   else if i =? 1 then Some (VZ (c_n_layers c)) else None
                 else None
  | NCoefLayer _ => Some (VZ (c_n_coef c))
  | NCoefLayer2 _ => Some (VZ (c_n_coef2 c))
  | NFour2 => Some (VZ (c_n_four2 c))
  | FIsoTopL _ | FIsoBotL _ | LevelsBL _ _ | SurfaceBL _ | Ltau0L _ _ | Omega0L _ _
  | Coef0L _ _ _ _ | KAmpL _ _ | KParL _ _ _ => Some (VD d_zero)
  | _ => None
  end.

Definition live0 (c : config) (b : blk) : bool :=
  match b with
  | BG | BCoef | BOmega | BLtau => true
  | BKAmp | BKPar | BKFunc => c_n_kernels c >? 0
  end.

Definition handle0 (nodes : Z -> dbl) (c : config) : handle :=
  mkH c c (mem0 nodes c) (live0 c) (fun x => if dep_hit c 0 (c_n_layers c) x then DEP_MASK else 0%N).

Definition create (nodes : Z -> dbl) (a : create_args) : outcome handle :=
  match create_config a with
  | Ok c => Ok (handle0 nodes c)
  | Err e => Err e
  | UB => UB
  end.

(** 1857-1885: the part of xrtm_destroy that concerns the set-flag arrays.  The other
    members are freed exactly when they were allocated and are not modelled. *)
Definition destroy_flags : M unit :=
  c <- cfg;;
  i <- rdZ InputsInit;;
  when (negb (i =? 0)) (
    free BG;; free BCoef;; free BOmega;; free BLtau;;
    when (c_n_kernels c >? 0) (free BKAmp;; free BKPar;; free BKFunc)).
