(** What doubling means: the layer is a pile of 2^N equal thin layers, and the result does what the pile does. *)
From Coq Require Import Reals Bool Arith ZArith.
From Verif Require Import Base DeltaMSpec AddingModel AddingSpec DoublingModel.
Open Scope R_scope.

(** Seen from the other side, the third and fourth Stokes components have the opposite sign. *)
Definition sign (n_stokes k : nat) : R := if Nat.ltb (k mod n_stokes) 2 then 1 else -1.
(** One of 2^N thin layers, to first order in its optical thickness, with sources [up] and [down] *)
Definition slice (n_stokes N : nat) (g : column) (up down : vec) : layer :=
  let d := ltau g / 2 ^ N in
  {| Rm := fun i j => sign n_stokes i * sign n_stokes j * (- d * r_p g i j);
     Tm := fun i j => sign n_stokes i * sign n_stokes j * (ident i j + d * t_p g i j);
     Sm := down;
     Rp := fun i j => - d * r_p g i j;
     Tp := fun i j => ident i j + d * t_p g i j;
     Sp := up |}.
(** Single scattering of the solar beam, weakened on its way through slice [k] and those above *)
Definition sunlit (n_stokes : nat) (F_0 : R) (qx : vec) (N : nat) (g : column) (k : nat) : layer :=
  let d := ltau g / 2 ^ N in
  let beam := F_0 / (4 * PI) * omega g * d * exp (- (INR (S k) * d * as_0 g)) in
  slice n_stokes N g (fun i => beam * P_pm g i / qx i) (fun i => beam * P_mm g i / qx i).
(** Emission, with the Planck function linear from planck0 at the top to planck1 at the bottom *)
Definition emitting (n_stokes : nat) (qx : vec) (N : nat) (g : column) (k : nat) : layer :=
  let d := ltau g / 2 ^ N in
  let e i := (1 - omega g) * d * (planck0 g + INR k * (planck1 g - planck0 g) / 2 ^ N) / qx i in
  slice n_stokes N g e e.
(** No multiple of 2^i slices, i < N, is such that light going back and forth between two of them builds up. *)
Definition slices_regular (n n_stokes N : nat) (g : column) : Prop :=
  forall i c, (i < N)%nat -> stands_for n (2 ^ i - 1) (fun _ => slice n_stokes N g zvec zvec) c -> regular n (Rm c) (Rp c).

(** The inputs vary with derivatives [g_l] where flagged: [l] the layer's own properties, [b] the beam, [t] the emission. *)
Definition on (f : bool) (x : R) : R := if f then x else 0.
Definition varies (n : nat) (l b t : bool) (G : R -> column) (p : R) (g_l : column) : Prop :=
  mderiv n (fun s => r_p (G s)) p (if l then r_p g_l else zmat) /\ mderiv n (fun s => t_p (G s)) p (if l then t_p g_l else zmat) /\
  vderiv n (fun s => P_mm (G s)) p (if l then P_mm g_l else zvec) /\ vderiv n (fun s => P_pm (G s)) p (if l then P_pm g_l else zvec) /\
  derivable_pt_lim (fun s => omega (G s)) p (on l (omega g_l)) /\ derivable_pt_lim (fun s => ltau (G s)) p (on l (ltau g_l)) /\
  (b = true -> derivable_pt_lim (fun s => as_0 (G s)) p (as_0 g_l)) /\ (b = false -> derivable_pt_lim (fun s => as_0 (G s)) p 0) /\
  (t = true -> derivable_pt_lim (fun s => planck0 (G s)) p (planck0 g_l) /\ derivable_pt_lim (fun s => planck1 (G s)) p (planck1 g_l)) /\
  (t = false -> derivable_pt_lim (fun s => planck0 (G s)) p 0 /\ derivable_pt_lim (fun s => planck1 (G s)) p 0).
(** [x] is the derivative of the layer that the pile amounts to. *)
Definition pile_deriv (n m : nat) (ls : R -> nat -> layer) (p : R) (x : layer) : Prop :=
  around p (fun s => exists c, stands_for n m (ls s) c) /\
  forall C, around p (fun s => stands_for n m (ls s) (C s)) -> lderiv n C p x.
