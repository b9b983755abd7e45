(** Derivatives of the radiances by successive orders: rtm_sos, src/xrtm_sos.c:21-544, what is computed for one of the derivatives (the loops over
    n_derivs), beside [SosModel].  Numbers are reals. *)
From Coq Require Import Reals Bool Arith List ZArith.
From Verif Require Import Base DeltaMSpec AddingModel TwoModel SosSpec SosModel SosDSpec.
Import ListNotations.
Open Scope R_scope.

Section SosD.
Variables (md : medium) (dl : medium_l) (mk : nat -> bool).      (* mk: derivs->layers[.][k] *)
Variables (n_layers : nat) (cs : list (nat * nat * nat)) (vector : bool) (m_quad n_stokes : nat).
Notation n := (S m_quad * n_stokes)%nat.
Notation N := (length cs).
Notation index := (index cs).
Notation T := (T md cs).
Notation E := (E md cs).
Notation mul := (mul m_quad n_stokes).
(** 152-153, 161 *)
Definition ltau_l2 (j : nat) : R := l_ltau dl (index j) / INR (snd (cell cs j)).
(** 158, 162, 169-170 *)
Definition btran_l2 (j : nat) : R :=
  if (j <? N)%nat then
    (l_btran dl (index j) + s_btran md (index j) * INR (snd (fst (cell cs j))) * (- ltau_l2 j * s_as0 md (index j) - ltau2 md cs j * l_as0 dl (index j))) *
    exp (INR (snd (fst (cell cs j))) * - ltau2 md cs j * s_as0 md (index j))
  else l_btran dl n_layers.
(** 210-215: W and F *)
Definition W (j q : nat) : R := - ltau_l2 j / s_qx md q * T j q.
Definition F (j q : nat) : R := - W j q.
(** The loops over j, with the light of the same order and its derivative *)
Fixpoint climb_l (add add_l : nat -> vec) (start start_l : vec) (c : nat) : vec :=
  match c with
  | O => start_l
  | S c => fun q => W (N - S c) q * climb md cs add start c q + T (N - S c) q * climb_l add add_l start start_l c q + add_l (N - S c)%nat q
  end.
Fixpoint descend_l (add add_l : nat -> vec) (start start_l : vec) (j : nat) : vec :=
  match j with O => start_l | S j => fun q => W j q * descend md cs add start j q + T j q * descend_l add add_l start start_l j q + add_l j q end.
(** 255, 284: b_l *)
Definition beam_strength_l (j : nat) : R :=
  s_F0 md / (4 * PI) / 2 * (l_omega dl (index j) * (btran2 md n_layers cs j + btran2 md n_layers cs (S j)) + s_omega md (index j) * (btran_l2 j + btran_l2 (S j))).
(** 258-261, 287-290 *)
Definition once_l (P P_l : nat -> vec) (k q : nat) : R :=
  (beam_strength_l k * E k q + beam_strength md n_layers cs k * F k q) * P (index k) q + (if mk (index k) then beam_strength md n_layers cs k * E k q * P_l (index k) q else 0).
(** 242-244, 253-263, 271-273, 282-292 *)
Definition first_l : field :=
  {| up := fun j => climb_l (fun k q => beam_strength md n_layers cs k * E k q * s_P0p md (index k) q) (once_l (s_P0p md) (l_P0p dl)) (s_bot md) (l_bot dl) (N - j);
     down := descend_l (fun k q => beam_strength md n_layers cs k * E k q * s_P0m md (index k) q) (once_l (s_P0m md) (l_P0m dl)) (s_top md) (l_top dl) |}.
(** 347-362, 370-386: r_p_l, t_p_l, r_m_l, t_m_l *)
Definition scaled_l (P P_l : mat) (j : nat) : mat :=
  fun q i => P q i * (part md * l_omega dl (index j) * s_qw md i) + (if mk (index j) then P_l q i * (part md * s_omega md (index j) * s_qw md i) else 0).
Definition r_p_l (j : nat) : mat := scaled_l (s_Pmp md (index j)) (l_Pmp dl (index j)) j.
Definition t_p_l (j : nat) : mat := scaled_l (s_Ppp md (index j)) (l_Ppp dl (index j)) j.
Definition r_m_l (j : nat) : mat := if vector then scaled_l (s_Ppm md (index j)) (l_Ppm dl (index j)) j else r_p_l j.
Definition t_m_l (j : nat) : mat := if vector then scaled_l (s_Pmm md (index j)) (l_Pmm dl (index j)) j else t_p_l j.
(** 428-449, 487-508: the part of the derivative that does not come from the attenuation of the light of the same order.  [a], [a_l] weigh the
    upward light [u], [b], [b_l] the downward light [d]. *)
Definition again_l (a a_l b b_l : nat -> mat) (u u_l d d_l : nat -> vec) (k q : nat) : R :=
  F k q * (mul (a k) (ends u k) q + mul (b k) (ends d k) q) +
  E k q * (mul (a_l k) (ends u k) q + mul (a k) (ends u_l k) q + mul (b_l k) (ends d k) q + mul (b k) (ends d_l k) q).
(** 399-413, 428-449, 470-472, 487-508: the next order *)
Definition next_l (x x_l : field) : field :=
  let tp := t_p md cs in let rp := r_p md cs in let tm := t_m md cs vector in let rm := r_m md cs vector in
  {| up := fun j => climb_l (fun k q => E k q * (mul (tp k) (ends (up x) k) q + mul (rm k) (ends (down x) k) q)) (again_l tp t_p_l rm r_m_l (up x) (up x_l) (down x) (down x_l))
                            (match s_Rs md with None => fun _ => 0 | Some r => mul r (down x N) end)
                            (match s_Rs md with None => fun _ => 0
                             | Some r => fun q => mul r (down x_l N) q + (if mk n_layers then mul (l_Rs dl) (down x N) q else 0) end) (N - j);
     down := descend_l (fun k q => E k q * (mul (rp k) (ends (up x) k) q + mul (tm k) (ends (down x) k) q)) (again_l rp r_p_l tm t_m_l (up x) (up x_l) (down x) (down x_l))
                       (s_top md) (l_top dl) |}.
(** 394-535: the loop over the orders, whose end the derivatives do not influence *)
Fixpoint orders_l (tol : R) (fuel : nat) (x x_l : field) (a : option R) (top_l bottom_l : vec) : vec * vec :=
  match fuel with
  | O => (top_l, bottom_l)
  | S fuel =>
      let y := next md cs vector m_quad n_stokes x in
      let y_l := next_l x x_l in
      let s := lesser a (greater (peak n_stokes (up y 0%nat) m_quad) (peak n_stokes (down y N) m_quad)) in
      let top_l := fun q => top_l q + up y_l 0%nat q in
      let bottom_l := fun q => bottom_l q + down y_l N q in
      if Rlt_dec s tol then (top_l, bottom_l) else orders_l tol fuel y y_l (Some s) top_l bottom_l
  end.
(** 265-269, 294-298, 467-468, 528-529: the sums left in I_p_l and I_m_l *)
Definition summed_l (max_os : nat) (tol : R) : vec * vec :=
  orders_l tol (max_os - 1) (first md n_layers cs) first_l None (up first_l 0%nat) (down first_l N).
End SosD.

(** 21-544; the first two of the report of [rtm_sos] come with these derivatives, the others (230-233) with zero *)
Definition rtm_sos_l (md : medium) (dl : medium_l) (mk : nat -> bool) (n_layers m_quad n_stokes : nat) (vector : bool) (max_os : nat) (max_tau tol : R) : run report :=
  bind (bind (cells max_tau md 0 n_layers) counted) (fun cs =>
    if finite md (S m_quad * n_stokes) then
      let t := summed_l md dl mk n_layers cs vector m_quad n_stokes max_os tol in
      Answer {| o_up_top := fst t; o_down_top := fun _ => 0; o_up_bottom := fun _ => 0; o_down_bottom := snd t |}
    else No_number).
