(** Two orders of scattering: rtm_two_os, src/xrtm_two_os.c:25-788, without derivatives.
    Numbers are reals: rounding is not modelled.  The allocations of work memory are not modelled, nor the parts that are commented out or follow if (0)
    (417-463).  The arguments qf, btran, utaus and ulevels are not used by the code. *)
From Coq Require Import Reals Bool Arith List.
From Verif Require Import Base DeltaMSpec AddingModel TwoModel SosModel TwoOsSpec.
Import ListNotations.
Open Scope R_scope.

Section TwoOs.
Variables (sk : sky) (n n_umus m : nat) (vector flag : bool).       (* n: n_quad_v_x, n_umus: n_umus_v, m: n_layers *)
(** 144-160: n_xmus_v, xmus_v and offset *)
Definition n_xmus : nat := if flag then n_umus else n.
Definition xmus : vec := if flag then a_umu sk else a_qx sk.
Definition offset : nat := if flag then n else O.
(** 299-304 *)
Definition r_0 (j k : nat) : R := a_omega sk j * a_P0p sk j k.
Definition t_0 (j k : nat) : R := a_omega sk j * a_P0m sk j k.
(** 322-334 *)
Definition x (k : nat) : R := 1 / a_qx sk k.
Definition y (k : nat) : R := 1 / xmus k.
Definition alpha (j k : nat) : R := exp (- a_ltau sk j * x k).
Definition beta (j k : nat) : R := exp (- a_ltau sk j * y k).
(** 342: Psi1 as set first *)
Definition Psi1x (j k : nat) : R := alpha j k * a_atran sk j.
(** 361-392: the light scattered once, i_p[0], at the level m - c *)
Fixpoint once (c : nat) : vec :=
  match c with
  | O => match a_Rs sk with None => fun _ => 0 | Some (r0, _) => r0 end
  | S c => let j := (m - S c)%nat in fun k =>
      Psi1x j k * once c k + 1 / 4 * (x k * 1 / a_mu0 sk / (x k + a_as0 sk j) * (1 - Psi1x j k)) * r_0 j k
  end.
(** 468-488: the factors of scattering between directions, r_m and t_p *)
Definition a_ : R := (1 + (if a_zeroth sk then 1 else 0)) / 4.
Definition r_m (j k l : nat) : R := (if vector then a_Ppm sk j k l else a_Pmp sk j k l) * (a_ * a_omega sk j * a_qw sk l).
Definition t_p (j k l : nat) : R := a_Ppp sk j k l * (a_ * a_omega sk j * a_qw sk l).
(** 540-546: Psi1 as set for the output directions, and Psi3 *)
Definition Psi1 (j k : nat) : R := beta j k * a_atran sk j.
Definition Psi3 (j k l : nat) : R := beta j k * alpha j l.
(** 565-593: what the atmosphere below the level m - c reflects by one scattering, R_p *)
Fixpoint R_p (c : nat) : mat :=
  match c with
  | O => match a_Rs sk with None => fun _ _ => 0 | Some (_, r) => fun k l => r k l * x l end
  | S c => let j := (m - S c)%nat in fun k l => R_p c k l * Psi3 j k l + y k * x l / (y k + x l) * (1 - Psi3 j k l) * r_m j k l
  end.
(** 634-654 *)
Definition Phi2 (j k l : nat) : R :=
  let b := beta j k * a_atran sk j in if Req_EM_T (y k) (x l) then a_ltau sk j * b else (b - alpha j l * a_atran sk j) / (x l - y k).
Definition Phi3 (j k l : nat) : R :=
  let d := beta j k * alpha j l in if Req_EM_T (a_as0 sk j) (x l) then a_ltau sk j * d else (d - a_atran sk j * beta j k) / (a_as0 sk j - x l).
(** 613, 676-695, 724-737: the light scattered twice, i_p[1], at the level m - c *)
Definition w4_up (j k l : nat) : R :=
  x l * 1 / a_mu0 sk / (4 * (x l + a_as0 sk j) * (y k + a_as0 sk j)) * (1 - Psi1 j k - (y k + a_as0 sk j) * Phi2 j k l).
Definition w4_down (j k l : nat) : R :=
  x l * y k / ((y k + a_as0 sk j) * (x l + y k)) * (1 - Psi1 j k - (y k + a_as0 sk j) * Phi3 j k l).
Fixpoint twice (c : nat) : vec :=
  match c with
  | O => fun _ => 0
  | S c => let j := (m - S c)%nat in fun k =>
      Psi1 j k * twice c k + y k * total n (fun l => t_p j k l * (Phi2 j k l * once c l + r_0 j l * w4_up j k l)) +
      a_as0 sk j / 4 * total n (fun l => (Phi3 j k l * R_p c k l + r_m j k l * w4_down j k l) * t_0 j l)
  end.
(** The divisors: 323, 326, 385, 589, 685, 727 *)
Definition nonzero (a : R) : bool := if Req_EM_T a 0 then false else true.
Definition divisible : bool :=
  nonzero (a_mu0 sk) && forallb (fun l => nonzero (a_qx sk l)) (seq 0 n) && forallb (fun k => nonzero (xmus k)) (seq 0 n_xmus) &&
  forallb (fun j => forallb (fun l => nonzero (x l + a_as0 sk j)) (seq 0 n) && forallb (fun k => nonzero (y k + a_as0 sk j)) (seq 0 n_xmus)) (seq 0 m) &&
  forallb (fun k => forallb (fun l => nonzero (y k + x l)) (seq 0 n)) (seq 0 n_xmus).
End TwoOs.

(** 25-788: what 278-284, 756, 766-771 leave in I_p and I_m, by level (the top, the surface) and direction *)
Definition rtm_two_os (sk : sky) (n n_umus m : nat) (vector flag : bool) : run report :=
  if divisible sk n n_umus m flag then
    let o := offset n flag in
    Answer {| o_up_top := fun p => if (o <=? p)%nat && (p <? o + n_xmus n n_umus flag)%nat then twice sk n m vector flag m (p - o)%nat * (a_F0 sk * a_mu0 sk / PI) else 0;
              o_down_top := fun _ => 0; o_up_bottom := fun _ => 0; o_down_bottom := fun _ => 0 |}
  else No_number.
