(** Successive orders of scattering: rtm_sos, src/xrtm_sos.c:21-544, without derivatives.
    Numbers are reals: rounding is not modelled.  The allocations of work memory are not modelled.  The arguments qf, mu_0, utaus, atran, sfi and
    utau_output are not used by the code. *)
From Coq Require Import Reals Bool Arith List ZArith.
From Verif Require Import Base DeltaMSpec AddingModel TwoModel SosSpec.
Import ListNotations.
Open Scope R_scope.

(** 115-122 and 145-149: the number of parts that a layer is cut into.  (int) a is undefined when a is too large; so is the addition of 1. *)
Definition parts (max_tau l : R) : run nat :=
  bind (over l max_tau) (fun a =>
    if Rlt_dec 1 a then if Rlt_dec a 2147483647 then Answer (1 + Z.to_nat (Int_part a))%nat else Undefined else Answer 1%nat).
(** 115-124, 143-166: index, and for each part its number among the parts of the layer and how many these are.  The sum of the numbers, n_layers2, is an int. *)
Fixpoint cells (max_tau : R) (md : medium) (k c : nat) : run (list (nat * nat * nat)) :=
  match c with
  | O => Answer []
  | S c => bind (parts max_tau (s_ltau md k)) (fun n =>
           bind (cells max_tau md (S k) c) (fun r => Answer (map (fun j => (k, j, n)) (seq 0 n) ++ r)))
  end.
Definition counted (l : list (nat * nat * nat)) : run (list (nat * nat * nat)) := if (Z.of_nat (length l) <=? 2147483647)%Z then Answer l else Undefined.

Section Sos.
Variables (md : medium) (n_layers : nat) (cs : list (nat * nat * nat)) (vector : bool).
Variables (m_quad n_stokes : nat).      (* m_quad: n_quad - 1 *)
Notation n := (S m_quad * n_stokes)%nat.
Notation N := (length cs).
(** The part with the number [j], 156 *)
Definition cell (j : nat) : nat * nat * nat := nth j cs (O, O, 1%nat).
Definition index (j : nat) : nat := fst (fst (cell j)).
(** 151, 157: ltau2 *)
Definition ltau2 (j : nat) : R := s_ltau md (index j) / INR (snd (cell j)).
(** 158-159, 168: btran2 *)
Definition btran2 (j : nat) : R :=
  if (j <? N)%nat then s_btran md (index j) * exp (INR (snd (fst (cell j))) * - ltau2 j * s_as0 md (index j)) else s_btran md n_layers.
(** 204-208: the transmittance of a thin layer and what it lacks to 1 *)
Definition T (j q : nat) : R := exp (- ltau2 j / s_qx md q).
Definition E (j q : nat) : R := 1 - T j q.
(** The loops over j, 246-264, 415-450 and 275-293, 474-509: from the bottom up, at the interface N - c, and from the top down *)
Fixpoint climb (add : nat -> vec) (start : vec) (c : nat) : vec :=
  match c with O => start | S c => fun q => T (N - S c) q * climb add start c q + add (N - S c)%nat q end.
Fixpoint descend (add : nat -> vec) (start : vec) (j : nat) : vec :=
  match j with O => start | S j => fun q => T j q * descend add start j q + add j q end.
(** 249, 278: b *)
Definition beam_strength (j : nat) : R := s_F0 md / (4 * PI) / 2 * s_omega md (index j) * (btran2 j + btran2 (S j)).
(** 240-293: the light scattered once *)
Definition first : field :=
  {| up := fun j => climb (fun k q => beam_strength k * E k q * s_P0p md (index k) q) (s_bot md) (N - j);
     down := descend (fun k q => beam_strength k * E k q * s_P0m md (index k) q) (s_top md) |}.
(** 333-345 and 366-368: r_p, t_p, r_m, t_m; without polarisation the last two are the first two (306-309) *)
(** 334 *)
Definition part : R := (1 + (if s_zeroth md then 1 else 0)) / 4 / 2.
Definition scaled (P : mat) (j : nat) : mat := fun q i => P q i * (part * s_omega md (index j) * s_qw md i).
Definition r_p (j : nat) : mat := scaled (s_Pmp md (index j)) j.
Definition t_p (j : nat) : mat := scaled (s_Ppp md (index j)) j.
Definition r_m (j : nat) : mat := if vector then scaled (s_Ppm md (index j)) j else r_p j.
Definition t_m (j : nat) : mat := if vector then scaled (s_Pmm md (index j)) j else t_p j.
(** dm_v_mul and dvec_add as used in the loops, 418-425 *)
Definition mul (a : mat) (v : vec) : vec := fun q => total n (fun i => a q i * v i).
Definition ends (f : nat -> vec) (j : nat) : vec := fun q => f j q + f (S j) q.
(** 398-509: the next order.  What enters at the top, I1_m, is put there at every order (470). *)
Definition next (x : field) : field :=
  {| up := fun j => climb (fun k q => E k q * (mul (t_p k) (ends (up x) k) q + mul (r_m k) (ends (down x) k) q))
                          (match s_Rs md with None => fun _ => 0 | Some r => mul r (down x N) end) (N - j);
     down := descend (fun k q => E k q * (mul (r_p k) (ends (up x) k) q + mul (t_m k) (ends (down x) k) q)) (s_top md) |}.
(** 452-459, 511-518: the greatest of the first Stokes components *)
Fixpoint peak (v : vec) (m : nat) : R :=
  match m with O => v O | S m => if Rlt_dec (peak v m) (v (S m * n_stokes)%nat) then v (S m * n_stokes)%nat else peak v m end.
(** MAX and MIN, 520 *)
Definition greater (x y : R) : R := if Rlt_dec y x then x else y.
Definition lesser (a : option R) (x : R) : R := match a with None => x | Some a => if Rlt_dec a x then a else x end.
(** 394-535: the loop over the orders; [None] stands for DBL_MAX *)
Fixpoint orders (tol : R) (fuel : nat) (x : field) (a : option R) (top bottom : vec) : vec * vec :=
  match fuel with
  | O => (top, bottom)
  | S fuel =>
      let y := next x in
      let s := lesser a (greater (peak (up y 0%nat) m_quad) (peak (down y N) m_quad)) in
      let top := fun q => top q + up y 0%nat q in
      let bottom := fun q => bottom q + down y N q in
      if Rlt_dec s tol then (top, bottom) else orders tol fuel y (Some s) top bottom
  end.
(** 240-535: the sums left in I_p and I_m *)
Definition summed (max_os : nat) (tol : R) : vec * vec := orders tol (max_os - 1) first None (up first 0%nat) (down first N).
End Sos.

(** What is left in I_p and I_m when the levels are the top, the surface, or both (what concerns a level is written only when it is asked for): 222-227, 265-266, 294-295, 460-466, 521-527.
    The setter accepts no other levels for this solver (src/xrtm_interface.c:659, 3162-3167). *)
Record report := { o_up_top : vec; o_down_top : vec; o_up_bottom : vec; o_down_bottom : vec }.
(** The divisions by the cosines, 206 *)
Definition finite (md : medium) (n : nat) : bool := forallb (fun q => if Req_EM_T (s_qx md q) 0 then false else true) (seq 0 n).
(** 21-544 *)
Definition rtm_sos (md : medium) (n_layers m_quad n_stokes : nat) (vector : bool) (max_os : nat) (max_tau tol : R) : run report :=
  bind (bind (cells max_tau md 0 n_layers) counted) (fun cs =>
    if finite md (S m_quad * n_stokes) then
      let t := summed md n_layers cs vector m_quad n_stokes max_os tol in
      Answer {| o_up_top := fst t; o_down_top := fun _ => 0; o_up_bottom := fun _ => 0; o_down_bottom := snd t |}
    else No_number).
