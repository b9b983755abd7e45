(** What the handle API promises, in terms of calls and answers only. *)
From Coq Require Import ZArith NArith List Bool SpecFloat.
From Verif Require Import Base OptionsModel Dbl HandleModel.
Import ListNotations.
Open Scope Z_scope.

(** The quantities a user sets and reads, one per documented input (per layer, derivative,
    kernel or parameter where the documentation says so). *)
Inductive item : Set :=
| IDoub | IPade | ISos | IFourierTol | ILambda | IPlanetR | ILevelsZ | IOutLevels | IOutTaus
| IOutThetas | IFIsoTop | IFIsoBot | IF0 | ITheta0 | IPhi0 | ILevelsB | ISurfaceB
| ICoef (i : Z) | IOmega (i : Z) | ILtau (i : Z) | IKAmp (i : Z) | IKPar (i j : Z) | IKFunc (i : Z)
(* derivatives *)
| IFIsoTopL (d : Z) | IFIsoBotL (d : Z) | ILevelsBL (d : Z) | ISurfaceBL (d : Z)
| ICoefL (i d : Z) | IOmegaL (i d : Z) | ILtauL (i d : Z) | IKAmpL (i d : Z) | IKParL (i d p : Z).

(** The code of the input in the public enumeration (src/xrtm_interface.h, INPUT). *)
Definition code (x : item) : Z :=
  match x with
  | IDoub => 1 | IPade => 2 | ISos => 3 | IFourierTol => 4 | ILambda => 5 | IPlanetR => 6
  | ILevelsZ => 7 | IOutLevels => 8 | IOutTaus => 9 | IOutThetas => 10
  | IFIsoTop => 11 | IFIsoTopL _ => 12 | IFIsoBot => 13 | IFIsoBotL _ => 14
  | IF0 => 15 | ITheta0 => 16 | IPhi0 => 17 | ILevelsB => 18 | ILevelsBL _ => 19
  | ISurfaceB => 20 | ISurfaceBL _ => 21 | ICoef _ => 24 | ICoefL _ _ => 25
  | IOmega _ => 26 | IOmegaL _ _ => 27 | ILtau _ => 28 | ILtauL _ _ => 29
  | IKAmp _ => 30 | IKAmpL _ _ => 31 | IKPar _ _ => 32 | IKParL _ _ _ => 33 | IKFunc _ => 34
  end.

(** 0, 1, ..., n-1 *)
Definition upto (n : Z) : list Z := map Z.of_nat (seq 0 (Z.to_nat n)).
Definition if_ {A} (b : bool) (l : list A) : list A := if b then l else [].

(** Number of parameters of each surface kernel type (documented per kernel). *)
Definition kernel_arity (t : Z) : Z :=
  match t with 1 => 4 | 3 | 4 | 9 => 2 | 7 | 8 => 3 | 10 => 4 | _ => 0 end.
Definition kernel_type (c : config) (i : Z) : Z := nth (Z.to_nat i) (c_kernels c) 0.

(** The inputs a solution needs, in the order they are reported. *)
Definition required (c : config) : list item :=
  let opt := has_opt c in let slv := has_slv c in
  if_ (slv SOLVER_DOUB_ADD) [IDoub] ++ if_ (slv SOLVER_PADE_ADD) [IPade]
  ++ if_ (slv SOLVER_SOS) [ISos] ++ [IFourierTol]
  ++ if_ (opt OPT_PSA) [IPlanetR; ILevelsZ]
  ++ if_ (opt OPT_OUTPUT_AT_LEVELS) [IOutLevels] ++ if_ (opt OPT_OUTPUT_AT_TAUS) [IOutTaus]
  ++ if_ (0 <? c_n_umus c) [IOutThetas]
  ++ [IFIsoTop; IFIsoBot]
  ++ if_ (opt OPT_SOURCE_SOLAR) [IF0; ITheta0; IPhi0]
  ++ if_ (opt OPT_SOURCE_THERMAL) [ILevelsB; ISurfaceB]
  ++ flat_map (fun i => if_ (slv SOLVERS_ALL) [ICoef i] ++ [IOmega i; ILtau i]) (upto (c_n_layers c))
  ++ flat_map (fun i => IKAmp i :: map (IKPar i) (upto (kernel_arity (kernel_type c i)))
                        ++ if_ (kernel_type c i =? KERNEL_USER_DEFINED) [IKFunc i])
       (upto (c_n_kernels c)).

(** [changes o x]: an accepted call [o] (re)defines quantity [x].  Setting the coefficients
    of a layer also changes which coefficient derivatives of that layer are readable. *)
Definition changes (o : op) (x : item) : bool :=
  match o, x with
  | SetDoub _, IDoub | SetPade _ _, IPade | SetSos _ _ _, ISos | SetFourierTol _, IFourierTol
  | SetLambda _, ILambda | SetPlanetR _, IPlanetR | SetLevelsZ _, ILevelsZ
  | SetOutLevels _, IOutLevels | SetOutTaus _, IOutTaus | SetOutThetas _, IOutThetas
  | SetFIsoTop _, IFIsoTop | SetFIsoBot _, IFIsoBot | SetF0 _, IF0 | SetTheta0 _, ITheta0
  | SetPhi0 _, IPhi0 | SetLevelsB _, ILevelsB | SetSurfaceB _, ISurfaceB
  | SetFIsoTopLn _, IFIsoTopL _ | SetFIsoBotLn _, IFIsoBotL _ | SetLevelsBLn _, ILevelsBL _
  | SetSurfaceBLn _, ISurfaceBL _
  | SetCoefn _ _, ICoef _ | SetCoefn _ _, ICoefL _ _ | SetCoefLnn _, ICoefL _ _
  | SetOmegan _, IOmega _ | SetOmegaLnn _, IOmegaL _ _
  | SetLtaun _, ILtau _ | SetLtauLnn _, ILtauL _ _ => true
  | SetFIsoTopL1 d _, IFIsoTopL d' | SetFIsoBotL1 d _, IFIsoBotL d'
  | SetLevelsBL1 d _, ILevelsBL d' | SetSurfaceBL1 d _, ISurfaceBL d' => d =? d'
  | SetCoef1 i _ _, ICoef i' | SetCoef1 i _ _, ICoefL i' _ => i =? i'
  | SetCoefL11 i d _, ICoefL i' d' | SetOmegaL11 i d _, IOmegaL i' d'
  | SetLtauL11 i d _, ILtauL i' d' => (i =? i') && (d =? d')
  | SetCoefLn1 d _, ICoefL _ d' | SetOmegaLn1 d _, IOmegaL _ d' | SetLtauLn1 d _, ILtauL _ d' => d =? d'
  | SetCoefL1n i _, ICoefL i' _ | SetOmegaL1n i _, IOmegaL i' _ | SetLtauL1n i _, ILtauL i' _ => i =? i'
  | SetOmega1 i _, IOmega i' | SetLtau1 i _, ILtau i' | SetKAmp i _, IKAmp i' => i =? i'
  | SetKPar1 i j _, IKPar i' j' => (i =? i') && (j =? j')
  | SetKParn i _, IKPar i' _ => i =? i'
  | SetKFunc i _, IKFunc i' => i =? i'
  | SetKAmpL1 i d _, IKAmpL i' d' => (i =? i') && (d =? d')
  | SetKAmpLn i _, IKAmpL i' _ => i =? i'
  | SetKParL11 i d p _, IKParL i' d' p' => (i =? i') && (d =? d') && (p =? p')
  | SetKParL1n i d _, IKParL i' d' _ => (i =? i') && (d =? d')
  | SetKParLn1 i p _, IKParL i' _ p' => (i =? i') && (p =? p')
  | SetKParLnn i _, IKParL i' _ _ => i =? i'
  | _, _ => false
  end.

(** The quantity a getter reports; [None] for the getters of the configuration. *)
Definition about (g : op) : option item :=
  match g with
  | GetDoub => Some IDoub | GetPade => Some IPade | GetSos => Some ISos
  | GetFourierTol => Some IFourierTol | GetLambda => Some ILambda | GetPlanetR => Some IPlanetR
  | GetLevelsZ => Some ILevelsZ | GetOutLevels => Some IOutLevels | GetOutTaus => Some IOutTaus
  | GetOutThetas | GetQx => Some IOutThetas
  | GetFIsoTop => Some IFIsoTop | GetFIsoTopL d => Some (IFIsoTopL d)
  | GetFIsoBot => Some IFIsoBot | GetFIsoBotL d => Some (IFIsoBotL d)
  | GetF0 => Some IF0 | GetTheta0 => Some ITheta0 | GetPhi0 => Some IPhi0
  | GetLevelsB => Some ILevelsB | GetLevelsBL d => Some (ILevelsBL d)
  | GetSurfaceB => Some ISurfaceB | GetSurfaceBL d => Some (ISurfaceBL d)
  | GetNCoef i => Some (ICoef i) | GetCoef i _ _ => Some (ICoef i)
  | GetCoefL i d _ _ => Some (ICoefL i d)
  | GetOmega i => Some (IOmega i) | GetOmegaL i d => Some (IOmegaL i d)
  | GetLtau i => Some (ILtau i) | GetLtauL i d => Some (ILtauL i d)
  | GetKAmp i => Some (IKAmp i) | GetKAmpL i d => Some (IKAmpL i d)
  | GetKPar i j => Some (IKPar i j) | GetKParL i d p => Some (IKParL i d p)
  | _ => None
  end.

(** Kinds of calls. *)
Inductive kind : Set := Setter | Getter | Solve | Solve2 | Clear.
Definition kind_of (o : op) : kind :=
  match o with
  | UpdateVaried | Solution _ _ _ _ | Radiance _ _ _ | MeanRadiance _ _ | Flux _ _ | FluxDivergence
  | LocalQuery _ _ _ => Solve
  | Solution2 _ => Solve2
  | ClearSaved => Clear
  | GetDoub | GetPade | GetSos | GetFourierTol | GetLambda | GetPlanetR | GetLevelsZ | GetOutLevels
  | GetOutTaus | GetOutThetas | GetFIsoTop | GetFIsoTopL _ | GetFIsoBot | GetFIsoBotL _ | GetF0
  | GetTheta0 | GetPhi0 | GetLevelsB | GetLevelsBL _ | GetSurfaceB | GetSurfaceBL _ | GetG _
  | GetNCoef _ | GetCoef _ _ _ | GetCoefL _ _ _ _ | GetOmega _ | GetOmegaL _ _ | GetLtau _
  | GetLtauL _ _ | GetKAmp _ | GetKPar _ _ | GetKAmpL _ _ | GetKParL _ _ _
  | GetOptions | GetSolvers | GetMaxCoef | GetNQuad | GetNStokes | GetNElem | GetNDerivs
  | GetNLayers | GetNKernels | GetNKernelQuad | GetKernel _ | GetNOutLevels
  | GetNOutThetas | GetNOutThetas2 | GetQx => Getter
  | _ => Setter
  end.

(** The setters of the phase function coefficients. *)
Definition is_set_coef (o : op) : bool :=
  match o with SetCoef1 _ _ _ | SetCoefn _ _ => true | _ => false end.

(** The value the getter [g] must report right after the setter [s] was accepted on a handle
    with configuration [c]; [None]: [g] is not about what [s] set.  [cosd], [acosd]: cosine
    of and arc cosine in degrees.  Layer single scattering albedos within 1e-5 of 1 are moved
    to 1 - 1e-5. *)
Definition at1 (x : list dbl) (i : Z) : dbl := nth (Z.to_nat i) x d_zero.
Definition at2 (x : list (list dbl)) (i j : Z) : dbl := at1 (nth (Z.to_nat i) x []) j.
Definition at3 (x : list (list (list dbl))) (i j k : Z) : dbl := at2 (nth (Z.to_nat i) x []) j k.
Definition at4 (x : list (list (list (list dbl)))) (i j k l : Z) : dbl :=
  at3 (nth (Z.to_nat i) x []) j k l.
Definition away_from_one (x : dbl) : dbl :=
  if dlt (dsub d_one x) d_1em5 then dsub d_one d_1em5 else x.

Definition stored (cosd acosd : dbl -> dbl) (c : config) (s g : op) : option (list val) :=
  let one d := Some [VD d] in
  let seq n f := Some (map (fun i => VD (f i)) (upto n)) in
  let nl := c_n_layers c in
  let on (b : bool) (r : option (list val)) := if b then r else None in
  match s, g with
  | SetDoub x, GetDoub | SetFourierTol x, GetFourierTol | SetLambda x, GetLambda
  | SetPlanetR x, GetPlanetR | SetFIsoTop x, GetFIsoTop | SetFIsoBot x, GetFIsoBot
  | SetF0 x, GetF0 | SetPhi0 x, GetPhi0 | SetSurfaceB x, GetSurfaceB => one x
  | SetPade a b, GetPade => Some [VZ a; VZ b]
  | SetSos n t e, GetSos => Some [VZ n; VD t; VD e]
  | SetLevelsZ x, GetLevelsZ | SetLevelsB x, GetLevelsB => seq (nl + 1) (at1 x)
  | SetOutLevels x, GetOutLevels => Some (map (fun i => VZ (nth (Z.to_nat i) x 0)) (upto (c_n_ulevels c)))
  | SetOutTaus x, GetOutTaus => seq (c_n_ulevels c) (at1 x)
  | SetOutThetas x, GetOutThetas => seq (c_n_umus c) (fun i => acosd (cosd (at1 x i)))
  | SetTheta0 x, GetTheta0 => one (acosd (cosd x))
  | SetFIsoTopL1 d x, GetFIsoTopL d' | SetFIsoBotL1 d x, GetFIsoBotL d'
  | SetSurfaceBL1 d x, GetSurfaceBL d' => on (d =? d') (one x)
  | SetFIsoTopLn x, GetFIsoTopL d | SetFIsoBotLn x, GetFIsoBotL d
  | SetSurfaceBLn x, GetSurfaceBL d => one (at1 x d)
  | SetLevelsBL1 d x, GetLevelsBL d' => on (d =? d') (seq (nl + 1) (at1 x))
  | SetLevelsBLn x, GetLevelsBL d => seq (nl + 1) (fun i => at2 x i d)
  | SetCoef1 i n x, GetNCoef i' => on (i =? i') (Some [VZ (if n <? 0 then c_n_coef c else n)])
  | SetCoef1 i n x, GetCoef i' j k => on (i =? i') (one (at2 x j k))
  | SetCoefn ns x, GetNCoef i =>
      Some [VZ (match ns with None => c_n_coef c | Some ns => nth (Z.to_nat i) ns 0 end)]
  | SetCoefn ns x, GetCoef i j k => one (at3 x i j k)
  | SetCoefL11 i d x, GetCoefL i' d' j k => on ((i =? i') && (d =? d')) (one (at2 x j k))
  | SetCoefLn1 d x, GetCoefL i d' j k => on (d =? d') (one (at3 x i j k))
  | SetCoefL1n i x, GetCoefL i' d j k => on (i =? i') (one (at3 x d j k))
  | SetCoefLnn x, GetCoefL i d j k => one (at4 x i d j k)
  | SetOmega1 i x, GetOmega i' => on (i =? i') (one (away_from_one x))
  | SetOmegan x, GetOmega i => one (away_from_one (at1 x i))
  | SetLtau1 i x, GetLtau i' => on (i =? i') (one x)
  | SetLtaun x, GetLtau i => one (at1 x i)
  | SetOmegaL11 i d x, GetOmegaL i' d' | SetLtauL11 i d x, GetLtauL i' d' =>
      on ((i =? i') && (d =? d')) (one x)
  | SetOmegaLn1 d x, GetOmegaL i d' | SetLtauLn1 d x, GetLtauL i d' => on (d =? d') (one (at1 x i))
  | SetOmegaL1n i x, GetOmegaL i' d | SetLtauL1n i x, GetLtauL i' d => on (i =? i') (one (at1 x d))
  | SetOmegaLnn x, GetOmegaL i d | SetLtauLnn x, GetLtauL i d => one (at2 x i d)
  | SetKAmp i x, GetKAmp i' => on (i =? i') (one x)
  | SetKPar1 i j x, GetKPar i' j' => on ((i =? i') && (j =? j')) (one x)
  | SetKParn i x, GetKPar i' j => on (i =? i') (one (at1 x j))
  | SetKAmpL1 i d x, GetKAmpL i' d' => on ((i =? i') && (d =? d')) (one x)
  | SetKAmpLn i x, GetKAmpL i' d => on (i =? i') (one (at1 x d))
  | SetKParL11 i d p x, GetKParL i' d' p' => on ((i =? i') && (d =? d') && (p =? p')) (one x)
  | SetKParL1n i d x, GetKParL i' d' p => on ((i =? i') && (d =? d')) (one (at1 x p))
  | SetKParLn1 i p x, GetKParL i' d p' => on ((i =? i') && (p =? p')) (one (at1 x d))
  | SetKParLnn i x, GetKParL i' d p => on (i =? i') (one (at2 x d p))
  | _, _ => None
  end.

(** Indices of a getter call inside the dimensions reported by the handle; [nco i] is the
    number of coefficients the handle reports for layer [i]. *)
Definition within (i n : Z) : Prop := 0 <= i < n.
Definition index_ok (c : config) (nco : Z -> Z) (g : op) : Prop :=
  let nl := c_n_layers c in let nd := c_n_derivs c in let nk := c_n_kernels c in
  match g with
  | GetFIsoTopL d | GetFIsoBotL d | GetLevelsBL d | GetSurfaceBL d => within d nd
  | GetNCoef i | GetOmega i | GetLtau i => within i nl
  | GetCoef i j k => within i nl /\ within j (c_n_elem c) /\ within k (nco i)
  | GetCoefL i d j k => within i nl /\ within d nd /\ within j (c_n_elem c) /\ within k (nco i)
  | GetOmegaL i d | GetLtauL i d => within i nl /\ within d nd
  | GetKAmp i | GetKernel i => within i nk
  | GetKPar i j => within i nk /\ within j (kernel_arity (kernel_type c i))
  | GetKAmpL i d => within i nk /\ within d nd
  | GetKParL i d p => within i nk /\ within d nd /\ within p (kernel_arity (kernel_type c i))
  | _ => True
  end.

(** The options, solvers or kernels under which the quantity behind a getter exists. *)
Definition offered (c : config) (g : op) : bool :=
  match g with
  | GetDoub => has_slv c SOLVER_DOUB_ADD | GetPade => has_slv c SOLVER_PADE_ADD
  | GetSos => has_slv c SOLVER_SOS
  | GetLambda | GetLevelsB | GetLevelsBL _ | GetSurfaceB | GetSurfaceBL _ =>
      has_opt c OPT_SOURCE_THERMAL
  | GetPlanetR | GetLevelsZ => has_opt c OPT_PSA
  | GetOutLevels => has_opt c OPT_OUTPUT_AT_LEVELS
  | GetOutTaus => has_opt c OPT_OUTPUT_AT_TAUS
  | GetOutThetas => negb (c_n_umus c =? 0)
  | GetF0 | GetTheta0 => has_opt c OPT_SOURCE_SOLAR
  | GetG _ => false
  | GetNCoef _ | GetCoef _ _ _ | GetCoefL _ _ _ _ => has_slv c SOLVERS_ALL
  | GetKAmp _ | GetKPar _ _ | GetKAmpL _ _ | GetKParL _ _ _ => negb (c_n_kernels c =? 0)
  | _ => true
  end.

(** Documented ranges of the inputs, as seen through the getters.  A NaN is in no range, and
    the statements carry it as an explicit exception. *)
Definition is_nan (d : dbl) : Prop := d = S754_nan.
Definition above (a d : dbl) : Prop := is_nan d \/ dlt a d = true.
Definition at_least (a d : dbl) : Prop := is_nan d \/ dle a d = true.
Definition below (a d : dbl) : Prop := is_nan d \/ dlt d a = true.
Definition at_most (a d : dbl) : Prop := is_nan d \/ dle d a = true.
Definition one_double (r : list val) (P : dbl -> Prop) : Prop := exists d, r = [VD d] /\ P d.
Definition doubles (n : Z) (r : list val) (P : dbl -> Prop) : Prop :=
  exists ds, r = map VD ds /\ Z.of_nat (length ds) = n /\ forall d, In d ds -> P d.
(** The angle [d] in degrees is what was given, in [0, 90), up to the round trip through its
    cosine. *)
Definition is_angle (cosd acosd : dbl -> dbl) (d : dbl) : Prop :=
  exists x, at_least d_zero x /\ below d_90 x /\ d = acosd (cosd x).

Definition documented (cosd acosd : dbl -> dbl) (c : config) (g : op) (r : list val) : Prop :=
  match g with
  | GetDoub | GetLambda | GetPlanetR | GetLtau _ => one_double r (above d_zero)
  | GetFourierTol | GetFIsoTop | GetFIsoBot | GetF0 | GetSurfaceB => one_double r (at_least d_zero)
  | GetSos => exists n t e, r = [VZ n; VD t; VD e] /\ 0 < n /\ above d_zero t /\ at_least d_zero e
  | GetOmega _ => one_double r (fun d => at_least d_zero d /\ below d_one d)
  | GetKAmp _ => one_double r (fun d => at_least d_zero d /\ at_most d_one d)
  | GetOutTaus => doubles (c_n_ulevels c) r (at_least d_zero)
  | GetLevelsB => doubles (c_n_layers c + 1) r (at_least d_zero)
  | GetTheta0 => one_double r (is_angle cosd acosd)
  | GetOutThetas => doubles (c_n_umus c) r (is_angle cosd acosd)
  | GetLevelsZ => doubles (c_n_layers c + 1) r (fun _ => True) /\
      forall i a b, nth_error r i = Some (VD a) -> nth_error r (S i) = Some (VD b) -> is_nan a \/ is_nan b \/ dle b a = true
  | GetOutLevels => exists ls, r = map VZ ls /\ Z.of_nat (length ls) = c_n_ulevels c /\
      (forall l, In l ls -> 0 <= l <= c_n_layers c) /\
      forall i a b, nth_error ls i = Some a -> nth_error ls (S i) = Some b -> a < b
  | GetNCoef _ => exists n, r = [VZ n] /\ 0 <= n <= c_n_coef c
  | _ => True
  end.

(** Indices of a setter call inside the dimensions of the handle. *)
Definition setter_index_ok (c : config) (o : op) : Prop :=
  let nl := c_n_layers c in let nd := c_n_derivs c in let nk := c_n_kernels c in
  let arity i := kernel_arity (kernel_type c i) in
  match o with
  | SetFIsoTopL1 d _ | SetFIsoBotL1 d _ | SetLevelsBL1 d _ | SetSurfaceBL1 d _
  | SetCoefLn1 d _ | SetOmegaLn1 d _ | SetLtauLn1 d _ => within d nd
  | SetCoef1 i _ _ | SetCoefL1n i _ | SetOmega1 i _ | SetOmegaL1n i _ | SetLtau1 i _
  | SetLtauL1n i _ => within i nl
  | SetCoefL11 i d _ | SetOmegaL11 i d _ | SetLtauL11 i d _ => within i nl /\ within d nd
  | SetKAmp i _ | SetKParn i _ | SetKAmpLn i _ | SetKParLnn i _ | SetKFunc i _ => within i nk
  | SetKPar1 i j _ | SetKParLn1 i j _ => within i nk /\ within j (arity i)
  | SetKAmpL1 i d _ | SetKParL1n i d _ => within i nk /\ within d nd
  | SetKParL11 i d p _ => within i nk /\ within d nd /\ within p (arity i)
  | _ => True
  end.

(** Setters that check everything before they write anything. *)
Definition atomic (o : op) : bool :=
  match o with
  | SetOutTaus _ | SetOutThetas _ | SetTheta0 _ | SetCoef1 _ _ _ | SetCoefn _ _ => false
  | _ => true
  end.

(** What the other setters check before writing: options and solvers, indices, angles and
    numbers of coefficients. *)
Definition bad_angle (a : dbl) : bool := dlt a d_zero || dge a d_90.
Definition bad_count (c : config) (n : Z) : bool := (n <? 0) || (n >? c_n_coef c).
Definition refused_at_once (c : config) (o : op) : Prop :=
  match o with
  | SetOutTaus x => has_opt c OPT_OUTPUT_AT_TAUS = false \/ (0 < c_n_ulevels c /\ dlt (at1 x 0) d_zero = true)
  | SetOutThetas x => c_n_umus c = 0 \/ exists i, within i (c_n_umus c) /\ bad_angle (at1 x i) = true
  | SetTheta0 x => has_opt c OPT_SOURCE_SOLAR = false \/ bad_angle x = true
  | SetCoef1 i n _ => has_slv c SOLVERS_ALL = false \/ ~ within i (c_n_layers c) \/ n > c_n_coef c
  | SetCoefn (Some ns) _ => has_slv c SOLVERS_ALL = false \/
      exists i, within i (c_n_layers c) /\ bad_count c (nth (Z.to_nat i) ns 0) = true
  | SetCoefn None _ => has_slv c SOLVERS_ALL = false
  | _ => False
  end.

(** Inputs that a user sets, as opposed to derivatives, which start as zero. *)
Definition input (x : item) : bool :=
  match x with
  | IFIsoTopL _ | IFIsoBotL _ | ILevelsBL _ | ISurfaceBL _ | ICoefL _ _ | IOmegaL _ _ | ILtauL _ _
  | IKAmpL _ _ | IKParL _ _ _ => false
  | _ => true
  end.

(** Calls that run a solver. *)
Definition runs (o : op) : bool :=
  match o with
  | Solution _ _ _ _ | Radiance _ _ _ | MeanRadiance _ _ | Flux _ _ | LocalQuery _ _ _ | Solution2 _ => true
  | _ => false
  end.

(** Output depths acceptable for a medium with layer thicknesses [ls]: from 0 to the total
    thickness, strictly increasing.  [nan_ok]: whether comparisons with a NaN count as holding. *)
Definition depths_good (nan_ok : bool) (us ls : list dbl) : Prop :=
  let total := fold_left dadd ls d_zero in
  let lt a b := dlt a b = true \/ (nan_ok = true /\ (is_nan a \/ is_nan b)) in
  let le a b := dle a b = true \/ (nan_ok = true /\ (is_nan a \/ is_nan b)) in
  (forall u, nth_error us 0 = Some u -> le d_zero u) /\
  (forall u, In u us -> le u total) /\
  (forall i u v, nth_error us i = Some u -> nth_error us (S i) = Some v -> lt u v).

(** The arguments of a solution request that do not depend on the inputs: a solver the
    handle was created for, at least one kind of output, azimuth angles for radiances, and
    no fluxes from the single scattering solver. *)
Definition overlap (a b : N) : Prop := exists k, N.testbit a k = true /\ N.testbit b k = true.
Definition request_ok (c : config) (solver outputs : N) (n_phis : Z) : Prop :=
  overlap solver SOLVERS_ALL /\ overlap solver (c_solvers c) /\ overlap outputs SOLUTION_ALL /\
  (overlap outputs OUT_RADIANCE -> 0 < n_phis) /\
  (overlap outputs (ors [OUT_RADIANCE_MEAN; OUT_FLUX; OUT_FLUX_DIVERGENCE]) -> ~ overlap solver SOLVER_SINGLE).
