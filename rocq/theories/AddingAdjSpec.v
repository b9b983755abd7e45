(** Weighted sums of the entries of operators and radiances: what reverse mode differentiates. *)
From Coq Require Import Reals Bool Arith.
From Verif Require Import Base DeltaMSpec AddingModel AddingSpec.
Open Scope R_scope.

(** LAPACK's contract for dmat_getrs2 ('t', ...) after dmat_getrf: x := x (m^T)^-1 when m is nonsingular *)
Definition tsolver (n : nat) (tsolve : mat -> mat -> mat) : Prop :=
  forall m x, nonsingular n m -> product n (tsolve m x) (fun i j => m j i) x.

(** Weights times entries *)
Definition mweigh (n : nat) (g x : mat) : R := total n (fun i => total n (fun j => g i j * x i j)).
Definition vweigh (n : nat) (g x : vec) : R := total n (fun i => g i * x i).
Definition lweigh (n : nat) (g x : layer) : R :=
  mweigh n (Rm g) (Rm x) + mweigh n (Tm g) (Tm x) + vweigh n (Sm g) (Sm x) +
  (mweigh n (Rp g) (Rp x) + mweigh n (Tp g) (Tp x) + vweigh n (Sp g) (Sp x)).
Definition fweigh (n : nat) (g x : face) : R := mweigh n (fR g) (fR x) + vweigh n (fS g) (fS x).
(** Only what is flagged may vary. *)
Definition within (l s : bool) (n : nat) (x : layer) : Prop := leq n x (flagged l s x).
Definition within_face (l s : bool) (n : nat) (x : face) : Prop := feq n x (flagged_face l s x).
