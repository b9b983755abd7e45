(** IEEE binary64 doubles as used by the interface code: Coq's executable specification of
    floating point ([SpecFloat], plain Gallina, no axioms).  Rounding, signed zeros,
    infinities and NaN comparisons are those of the C [double] operators. *)
From Coq Require Import ZArith List Bool SpecFloat.
Import ListNotations.

Definition dbl : Set := spec_float.

(** C comparison operators; every one is false when an operand is NaN, except [!=]. *)
Definition dlt (a b : dbl) : bool := SFltb a b.
Definition dle (a b : dbl) : bool := SFleb a b.
Definition dgt (a b : dbl) : bool := SFltb b a.
Definition dge (a b : dbl) : bool := SFleb b a.
Definition deq (a b : dbl) : bool := SFeqb a b.

(** C [a + b], [a - b], [-a], [fabs(a)]. *)
Definition dadd (a b : dbl) : dbl := SFadd 53 1024 a b.
Definition dsub (a b : dbl) : dbl := SFsub 53 1024 a b.
Definition dneg (a : dbl) : dbl := SFopp a.
Definition dabs (a : dbl) : dbl := SFabs a.

Definition d_zero : dbl := S754_zero false.
Definition d_one : dbl := S754_finite false 4503599627370496 (-52).
(** 90. in the angle range tests. *)
Definition d_90 : dbl := S754_finite false 6333186975989760 (-46).
(** DBL_EPSILON = 2^-52. *)
Definition d_eps : dbl := S754_finite false 4503599627370496 (-104).
(** 1.e-5, the default singularity thresholds (src/xrtm.h:45-46). *)
Definition d_1em5 : dbl := S754_finite false 5902958103587057 (-69).

(** src/xrtm_utility.c:358-364 singularity_adjust_down. *)
Definition singularity_adjust_down (base value eps : dbl) : dbl :=
  if dlt (dsub base value) eps then dsub base eps else value.

(** src/xrtm_utility.c:368-381 singularity_adjust_auto. *)
Definition singularity_adjust_auto (base value eps : dbl) : dbl :=
  let a := dsub base value in
  if dlt a d_zero && dgt a (dneg eps) then dadd base eps
  else if dge a d_zero && dlt a eps then dsub base eps
  else value.
