(** LAPACK's contract for dgbtrf and dgbtrs. *)
From Coq Require Import Reals Bool Arith.
From Verif Require Import DeltaMSpec AddingModel AddingSpec.
Open Scope R_scope.

(** LAPACK's band storage, here by columns: the entry in row r and column c of a matrix with kl diagonals below and ku diagonals above the
    main one is number kl + ku + r - c of column c; the other entries of the matrix are zero. *)
Definition unband (kl ku : nat) (a : mat) : mat := fun r c =>
  if (c <=? r + ku)%nat && (r <=? c + kl)%nat then a c (kl + ku + r - c)%nat else 0.
(** A nonsingular matrix is factored and systems with it are solved. *)
Definition band_solver (N kl ku : nat) (gb : mat -> option (vec -> vec)) : Prop :=
  forall a, nonsingular N (unband kl ku a) -> exists f, gb a = Some f /\
    forall v r, (r < N)%nat -> total N (fun c => unband kl ku a r c * f v c) = v r.
(** A surface that is absent reflects nothing. *)
Definition reflector (surf : option mat) : mat := match surf with None => zmat | Some Rs => Rs end.
