(** Independent specification of valid configurations, in terms of named options and
    solvers (sets), not of the code's masks and test order. *)
From Coq Require Import ZArith NArith List.
Import ListNotations.

(** The options by name; the constructor order is the bit order documented in
    src/xrtm_interface.h:41-77. *)
Inductive opt :=
| CalcDerivs | ReverseDerivs | DeltaM | NTTms | FourConvOld | FourConvNew | NoAzimuthal
| OutputAtLevels | OutputAtTaus | PartSolClassical | PartSolGreens | PhaseScalar
| PhaseMatrixGc | PhaseMatrixLc | Psa | QuadNorm | QuadDoub | QuadLobatto | SaveLegPolys
| SavePhaseMats | SaveLocalRT | SaveLayerRTS | SaveTotalRTS | Sfi | SourceSolar
| SourceThermal | StackReuse | TopDown | BottomUp | Upwelling | Downwelling | Vector.

Definition opt_index (x : opt) : N :=
  match x with
  | CalcDerivs => 0 | ReverseDerivs => 1 | DeltaM => 2 | NTTms => 3 | FourConvOld => 4
  | FourConvNew => 5 | NoAzimuthal => 6 | OutputAtLevels => 7 | OutputAtTaus => 8
  | PartSolClassical => 9 | PartSolGreens => 10 | PhaseScalar => 11 | PhaseMatrixGc => 12
  | PhaseMatrixLc => 13 | Psa => 14 | QuadNorm => 15 | QuadDoub => 16 | QuadLobatto => 17
  | SaveLegPolys => 18 | SavePhaseMats => 19 | SaveLocalRT => 20 | SaveLayerRTS => 21
  | SaveTotalRTS => 22 | Sfi => 23 | SourceSolar => 24 | SourceThermal => 25
  | StackReuse => 26 | TopDown => 27 | BottomUp => 28 | Upwelling => 29
  | Downwelling => 30 | Vector => 31
  end%N.

(** [on o x]: the option set [o] contains [x]. *)
Definition on (o : N) (x : opt) : Prop := N.testbit o (opt_index x) = true.

Inductive solver :=
| DoubAdd | EigAdd | EigBvp | FourStream | MemBvp | PadeAdd | Single | SixStream | Sos
| TwoOs | TwoStream.

Definition solver_index (x : solver) : N :=
  match x with
  | DoubAdd => 0 | EigAdd => 1 | EigBvp => 2 | FourStream => 3 | MemBvp => 4 | PadeAdd => 5
  | Single => 6 | SixStream => 7 | Sos => 8 | TwoOs => 9 | TwoStream => 10
  end%N.

Definition wants (s : N) (x : solver) : Prop := N.testbit s (solver_index x) = true.

(** Exactly one element of the group is present. *)
Definition exactly_one (o : N) (g : list opt) : Prop :=
  exists x, In x g /\ on o x /\ forall y, In y g -> on o y -> y = x.

Definition some_of (o : N) (g : list opt) : Prop := exists x, In x g /\ on o x.

Definition not_both (o : N) (x y : opt) : Prop := ~ (on o x /\ on o y).

Record valid_options (o : N) : Prop := {
  vo_conv : exactly_one o [FourConvOld; FourConvNew];
  vo_out : exactly_one o [OutputAtLevels; OutputAtTaus];
  vo_part : exactly_one o [PartSolClassical; PartSolGreens];
  vo_phase : exactly_one o [PhaseScalar; PhaseMatrixGc; PhaseMatrixLc];
  vo_quad : exactly_one o [QuadNorm; QuadDoub; QuadLobatto];
  vo_dir : some_of o [Upwelling; Downwelling];
  vo_vector : on o Vector <-> some_of o [PhaseMatrixGc; PhaseMatrixLc];
  vo_tms : not_both o NTTms NoAzimuthal;
  vo_save_stack : not_both o SaveLayerRTS StackReuse;
  vo_stack_derivs : on o StackReuse -> on o CalcDerivs;
  vo_stack_td : not_both o StackReuse TopDown;
  vo_td_bu : not_both o TopDown BottomUp }.

Record valid_counts (o : N) (max_coef n_quad n_stokes n_derivs n_out_levels n_out_thetas : Z)
  : Prop := {
  vc_derivs : on o CalcDerivs -> n_derivs <> 0%Z;
  vc_no_derivs : ~ on o CalcDerivs -> (n_derivs <= 0)%Z;
  vc_delta_m : on o DeltaM -> (2 * n_quad < max_coef)%Z;
  vc_sfi : on o Sfi -> n_out_thetas <> 0%Z;
  vc_one_way : on o TopDown \/ on o BottomUp -> n_out_levels = 1%Z;
  vc_stokes : (1 < n_stokes)%Z -> on o Vector }.

(** What each solver requires: a table by solver (the code is a table by condition). *)
Definition both_ways_or_bvp (o : N) : Prop :=
  ~ on o StackReuse /\ ~ on o TopDown /\ ~ on o BottomUp.

Definition compatible (o : N) (n_quad n_theta_0s n_out_levels n_out_thetas : Z) (x : solver)
  : Prop :=
  ~ on o QuadLobatto /\
  (x <> DoubAdd -> n_theta_0s = 1%Z) /\
  match x with
  | DoubAdd | EigAdd | PadeAdd =>
      (n_out_levels <= 2)%Z /\ ~ on o OutputAtTaus /\ ~ on o Sfi
  | EigBvp => both_ways_or_bvp o
  | MemBvp => ~ on o Sfi /\ on o SourceSolar /\ ~ on o SourceThermal /\ both_ways_or_bvp o
  | Single => (on o DeltaM -> on o NTTms) /\ ~ on o NoAzimuthal /\ on o SourceSolar /\
              ~ on o SourceThermal /\ both_ways_or_bvp o
  | Sos => (n_out_levels <= 2)%Z /\ ~ on o OutputAtTaus /\ ~ on o Sfi /\ on o SourceSolar /\
           ~ on o SourceThermal /\ both_ways_or_bvp o
  | TwoOs => (n_out_levels <= 2)%Z /\ ~ on o NTTms /\ on o SourceSolar /\
             ~ on o SourceThermal /\ both_ways_or_bvp o
  | TwoStream => n_quad = 1%Z /\ ((0 < n_out_thetas)%Z -> on o Sfi) /\ ~ on o SourceThermal
  | FourStream => n_quad = 2%Z /\ ((0 < n_out_thetas)%Z -> on o Sfi) /\ ~ on o SourceThermal
  | SixStream => n_quad = 3%Z /\ ((0 < n_out_thetas)%Z -> on o Sfi) /\ ~ on o SourceThermal
  end.

(** Default rules: which option may be added to a request and why (xrtm documentation of
    implicit settings). *)
Definition default_rule (o : N) (n_stokes : Z) (x : opt) : Prop :=
  match x with
  | Vector => (1 < n_stokes)%Z
  | DeltaM => on o NTTms
  | FourConvNew => ~ some_of o [FourConvOld; FourConvNew]
  | PartSolClassical => ~ some_of o [PartSolClassical; PartSolGreens]
  | PhaseScalar => ~ some_of o [PhaseScalar; PhaseMatrixGc; PhaseMatrixLc]
                   /\ ~ on o Vector /\ (n_stokes <= 1)%Z
  | PhaseMatrixGc => ~ some_of o [PhaseScalar; PhaseMatrixGc; PhaseMatrixLc]
                   /\ (on o Vector \/ (1 < n_stokes)%Z)
  | QuadDoub => ~ some_of o [QuadNorm; QuadDoub; QuadLobatto]
  | Upwelling | Downwelling => ~ some_of o [Upwelling; Downwelling]
  | _ => False
  end.

(** [o'] is the request [o] completed with the defaults and nothing else. *)
Definition completes (o : N) (n_stokes : Z) (o' : N) : Prop :=
  (forall x, on o' x <-> on o x \/ default_rule o n_stokes x) /\
  (forall k, (32 <= k)%N -> N.testbit o' k = N.testbit o k).
