(** What an adjoint is: applied to any direction it gives the change, in that direction, of the weighted sum of the outputs.  No reference to
    how the code computes it. *)
From Coq Require Import Reals Arith.
From Verif Require Import DeltaMSpec SingleAdjModel.
Open Scope R_scope.

(** A direction applied to adjoints: layer by layer, and element by element for the phase function *)
Definition sum2 (n m : nat) (c y : nat -> nat -> R) : R := total n (fun i => total m (fun k => c i k * y i k)).
Definition pair (n m : nat) (d a : atm) : R :=
  total n (fun i => t_om d i * t_om a i) + total n (fun i => t_lt d i * t_lt a i) + total n (fun i => t_bt d i * t_bt a i) +
  total n (fun i => t_sl d i * t_sl a i) + sum2 n m (t_ph d) (t_ph a).
(** with what enters *)
Definition along (n m : nat) (d : atm) (din : nat -> R) (a : atm) (ina : nat -> R) : R := pair n m d a + total m (fun jj => din jj * ina jj).
(** The sum of all outputs, weighted with [g] *)
Definition weighted (nk m : nat) (g y : nat -> nat -> R) : R := total nk (fun k => total m (fun jj => g k jj * y k jj)).
(** Two kinds of scattering in one atmosphere *)
Definition shared_pair (n : nat) (d a : atm) : R :=
  total n (fun i => t_lt d i * t_lt a i) + total n (fun i => t_bt d i * t_bt a i) + total n (fun i => t_sl d i * t_sl a i).
Definition scat_pair (n m : nat) (d a : scatm) : R := total n (fun i => c_om d i * c_om a i) + sum2 n m (c_ph d) (c_ph a).
Definition along2 (n m : nat) (d : atm) (dt df : scatm) (din : nat -> R) (a : atm) (at' af : scatm) (ina : nat -> R) : R :=
  shared_pair n d a + scat_pair n m dt at' + scat_pair n m df af + total m (fun jj => din jj * ina jj).
