(** The two-stream solver at directions other than its streams (n_umus > 0): rtm_two_stream, src/xrtm_two_stream.c:1031-1229, and the integration of the
    source function, sfi (1626-1752) and sfi_layer (1291-1619), without derivatives.
    The model follows one direction [j] of the n_umus: no element of an array indexed by the direction is used for another direction.
    Numbers are reals: rounding is not modelled. *)
From Coq Require Import Reals Bool Arith List ZArith.
From Verif Require Import Base DeltaMSpec AddingModel EigModel TwoSpec TwoModel.
Open Scope R_scope.

(** The arguments of sfi that change during its loops: i_out_level, I_0[j] and I_u[...][offset + j], [None] where nothing has been written *)
Record sweep := { s_out : Z; s_I0 : R; s_Iu : nat -> option R }.

Section View.
Variable lu : nat -> mat -> option (vec -> vec).
Variable d : deck.
Variable n_coef : nat.
Variables (solar : bool) (m : nat).
Variable g : ground.
Variables (n_umus : nat) (umu : vec).
Variables (ru ru0 : vec).              (* Rs_uq[.][0], Rs_u0, read if there is a surface *)
Variable once : bool.                  (* add_single_scattering *)
Variable n_ulevels : nat.
Variable ulevels : nat -> nat.
Variable utaus : option (nat -> R).    (* None: ! utau_output *)
Variable j : nat.

(** 1059-1088: P_uq_pp, P_uq_mp, P_u0_mm, P_u0_pm *)
Definition view_phases (k : nat) : run (R * R * R * R) :=
  bind (root (1 - umu j * umu j)) (fun a1 => bind (root (1 - t_qx d * t_qx d)) (fun sqrt1 => bind (root (1 - t_mu0 d * t_mu0 d)) (fun sqrt2 =>
  let v1 := umu j * t_qx d in let v2 := a1 * sqrt1 in let v3 := umu j * t_mu0 d in let v4 := a1 * sqrt2 in
  bind (coefficient d n_coef k) (fun chi =>
  if (t_four d =? 0)%nat then let a6 := chi * v1 in let b6 := chi * v3 in Answer (1 + a6, 1 - a6, 1 + b6, 1 - b6)
  else let a6 := chi * v2 in let b6 := chi * v4 in Answer (a6, a6, b6, b6))))).

(** sfi_layer, 1291-1619; [down] is the argument flag *)
Definition sfi_layer (F_0 : R) (down : bool) (k : nat) (w : wave) (P_u0_pm P_uq_pp P_uq_mp : R) (b : vec) (atau btau ptau I_0 : R) : run R :=
  let ltau := t_ltau d k in let as_0 := t_as0 d k in let omega := t_omega d k in
  let solfac := F_0 / (4 * PI) in
  let AA := (1 + (if (t_four d =? 0)%nat then 1 else 0)) / 4 * 1 in
  bind (over (- atau) (umu j)) (fun e => let e1 := exp e in
  let I_u := I_0 * e1 in
  bind (if solar then
    let q1 := AA * w_Fp w in let q2 := AA * w_Fm w in
    let u1 := P_uq_pp * q1 + P_uq_mp * q2 in
    let a1 := t_btran d k * solfac in
    let u1 := if once then u1 + a1 * P_u0_pm else u1 in
    let Fu_0 := omega * u1 in
    let e2 := exp (- ptau * as_0) in
    bind (if down then over (e2 - e1) (1 - umu j * as_0) else over (e2 - t_atran d k * e1) (1 + umu j * as_0)) (fun Du_0 => Answer (I_u + Fu_0 * Du_0))
  else Answer I_u) (fun I_u =>
  let qq1 := AA * w_Xp w in let qq2 := AA * w_Xm w in
  let Xu_p := P_uq_pp * qq1 - P_uq_mp * qq2 in
  let Xu_m := P_uq_pp * qq2 - P_uq_mp * qq1 in
  let e3 := exp (- w_nu w * btau) in let e4 := exp (- w_nu w * ltau) in let e5 := exp (- w_nu w * atau) in
  let ii := (2 * k)%nat in
  let a1 := umu j * w_nu w in
  bind (if down then over (e5 - e1) (1 - a1) else over (e3 - e4 * e1) (1 + a1)) (fun Du_p =>
  bind (if down then over (e3 - e4 * e1) (1 + a1) else over (e5 - e1) (1 - a1)) (fun Du_m =>
  let u1 := b ii * Xu_p * Du_p + b (ii + 1)%nat * Xu_m * Du_m in
  Answer (I_u + omega * u1))))).
(** The calls of sfi, 1183-1197 for upward and 1212-1226 for downward light, hand over the phase functions in different orders. *)
Definition layer_call (F_0 : R) (down : bool) (ws : nat -> wave) (b : vec) (k : nat) (atau btau ptau I_0 : R) : run R :=
  if (m <? k)%nat then Undefined else
  bind (view_phases k) (fun '(P_uq_pp, P_uq_mp, P_u0_mm, P_u0_pm) =>
  if down then sfi_layer F_0 down k (ws k) P_u0_mm P_uq_mp P_uq_pp b atau btau ptau I_0
  else sfi_layer F_0 down k (ws k) P_u0_pm P_uq_pp P_uq_mp b atau btau ptau I_0).

(** An element of ulevels or utaus, arrays of n_ulevels elements, as read in 1682, 1701 and 1739 *)
Definition read {A} (f : nat -> A) (q : Z) : run A := if (0 <=? q)%Z && (q <? Z.of_nat n_ulevels)%Z then Answer (f (Z.to_nat q)) else Undefined.
Definition write (q : Z) (x : option R) (Iu : nat -> option R) : nat -> option R := fun p => if (Z.of_nat p =? q)%Z then x else Iu p.
Definition inc (down : bool) : Z := if down then 1%Z else (-1)%Z.
(** I_u[i_out_level][...] = I_0[...]; i_out_level += inc: 1683-1692, 1740-1749 *)
Definition give (down : bool) (s : sweep) : sweep := {| s_out := s_out s + inc down; s_I0 := s_I0 s; s_Iu := write (s_out s) (Some (s_I0 s)) (s_Iu s) |}.
(** 1682-1693: the light at the boundary where the sweep begins *)
Definition begin (down : bool) (s : sweep) : run sweep :=
  bind (read ulevels (s_out s)) (fun l =>
  if ((if down then 0 else S m) =? l)%nat then
    match utaus with
    | None => Answer (give down s)
    | Some tau => bind (read tau (s_out s)) (fun t => if Req_EM_T t 0 then Answer (give down s) else Answer s)
    end
  else Answer s).
(** 1718: the call for an output within the layer.  The arguments n_umus and F_0 are exchanged: the declaration of sfi_layer has F_0 first.  The
    function gets the number of directions as the flux, and the flux, converted to an integer, as the number of directions, which is the length of its
    local arrays too.  A length of zero, which other local arrays have whenever there are no derivatives, is taken as the extension of GNU C that it is. *)
Definition swapped_call (down : bool) (ws : nat -> wave) (b : vec) (k : nat) (atau btau ptau I_0 : R) : run (option R) :=
  if Rle_dec (t_F0 d) (-1) then Undefined
  else let n := if Rlt_dec (t_F0 d) 0 then 0%Z else Int_part (t_F0 d) in
    if (Z.of_nat n_umus <? n)%Z then Undefined
    else if (Z.of_nat j <? n)%Z then bind (layer_call (INR n_umus) down ws b k atau btau ptau I_0) (fun x => Answer (Some x))
    else Answer None.
(** 1701-1724: the outputs within the layer i; [fuel] bounds the number of passes of the while loop, which ends at the end of the array *)
Fixpoint within (fuel : nat) (down : bool) (ws : nat -> wave) (b : vec) (tau : nat -> R) (i : nat) (s : sweep) : run sweep :=
  match fuel with
  | O => Answer s
  | S fuel =>
    if (0 <=? s_out s)%Z && (s_out s <? Z.of_nat n_ulevels)%Z then
      if (i =? ulevels (Z.to_nat (s_out s)))%nat then
        let ptau := tau (Z.to_nat (s_out s)) in
        let atau := if down then ptau else t_ltau d i - ptau in
        let btau := if down then t_ltau d i - ptau else ptau in
        bind (swapped_call down ws b i atau btau ptau (s_I0 s)) (fun x =>
        within fuel down ws b tau i
          {| s_out := s_out s + inc down; s_I0 := s_I0 s; s_Iu := match x with Some _ => write (s_out s) x (s_Iu s) | None => s_Iu s end |})
      else Answer s
    else Answer s
  end.
(** The body of the loop over the layers, 1699-1751 *)
Definition pass (down : bool) (ws : nat -> wave) (b : vec) (i : nat) (s : sweep) : run sweep :=
  bind (match utaus with
        | None => Answer s
        | Some tau => bind (read ulevels (s_out s)) (fun l => if (i =? l)%nat then within n_ulevels down ws b tau i s else Answer s)
        end) (fun s =>
  bind (layer_call (t_F0 d) down ws b i (t_ltau d i) 0 (if down then t_ltau d i else 0) (s_I0 s)) (fun x =>
  let s := {| s_out := s_out s; s_I0 := x; s_Iu := s_Iu s |} in
  match utaus with
  | Some _ => Answer s
  | None => bind (read ulevels (s_out s)) (fun l => if ((if down then S i else i) =? l)%nat then Answer (give down s) else Answer s)
  end)).
(** for (i = i1; i != i2; i += inc), 1699, [c] passes *)
Fixpoint passes (c : nat) (down : bool) (ws : nat -> wave) (b : vec) (i : nat) (s : sweep) : run sweep :=
  match c with O => Answer s | S c => bind (pass down ws b i s) (passes c down ws b (if down then S i else i - 1)%nat) end.
(** sfi; [I_0] is the light at the boundary.  1661-1676: the number of passes.  A first level below the bottom is never reached from above. *)
Definition sfi (down : bool) (ws : nat -> wave) (b : vec) (I_0 : R) : run (nat -> option R) :=
  let out := if down then 0%Z else (Z.of_nat n_ulevels - 1)%Z in
  bind (if down then bind (read ulevels (Z.of_nat n_ulevels - 1)) (fun l => Answer (match utaus with None => l | Some _ => S l end))
        else bind (read ulevels 0) (fun l => if (S m <? l)%nat then Undefined else Answer (S m - l)%nat)) (fun c =>
  bind (begin down {| s_out := out; s_I0 := I_0; s_Iu := fun _ => None |}) (fun s =>
  bind (passes c down ws b (if down then 0 else m)%nat s) (fun s => Answer (s_Iu s)))).
(** 1118-1139: the light that the surface sends into the direction *)
Definition from_below (ws : nat -> wave) (x : vec) : R :=
  match g with
  | None => 0
  | Some _ =>
    let i := m in let ii := (2 * S m - 2)%nat in
    let a1 := x ii * - w_Xm (ws i) * w_L (ws i) + x (ii + 1)%nat * - w_Xp (ws i) + w_Fm (ws i) * t_atran d i in
    let I_0 := a1 * ru j in
    if solar then if once then I_0 + t_F0 d * t_mu0 d / PI * t_btran d (S m) * ru0 j else I_0 else I_0
  end.
(** The whole call, rtm_two_stream, 50-1229, for the direction j and all the outputs *)
Definition two_stream_view (down : bool) : run (nat -> option R) :=
  bind (layers d n_coef solar (S m)) (fun ws => bind (amplitudes lu d solar m g ws) (fun x => sfi down ws x (if down then 0 else from_below ws x))).
End View.
