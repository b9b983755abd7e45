(** The quadratures: gauss_leg_point, gauss_leg_quad and gauss_leg_quad2, misc/rtutil_math.c:73-220, and where xrtm_create uses them,
    src/xrtm_interface.c:1108-1135 and 1196-1202.

    The arithmetic is over the reals.  A division by zero is [Not_a_number] (in C an infinity or a NaN, of which the comparison at the
    end of the loop is false).  The do-while loop has no bound, so the model takes fuel, and [Running] says that it has not ended yet. *)
From Coq Require Import Reals Bool Arith.
From Verif Require Import DeltaMModel DerivsModel EigDModel.
Open Scope R_scope.

(** 97-107: the recurrence; the pair is (p1, p2) *)
Definition polys (n : nat) (y1 : R) : R * R :=
  loop n (fun j p => let '(p1, p2) := p in
    let p3 := p2 in let p2 := p1 in
    let db := y1 * p2 in
    (INR j / (INR j + 1) * (db - p3) + db, p2)) (1, 0).
(** 97-120: the body of the do-while loop, new y1 and p2 *)
Definition point_step (n ib : nat) (y1 : R) : option (R * R) :=
  let '(p1, p2) := polys n y1 in
  let db := 1 - y1 * y1 in
  if Req_EM_T db 0 then None else
  let p1p := INR n * (p2 - y1 * p1) / db in
  let p1pp := (2 * y1 * p1p - INR ib * p1) / db in
  if Req_EM_T p1p 0 then None else
  let y2 := y1 in
  let db := p1 / p1p in
  Some (y2 - db * (1 + db * p1pp / (2 * p1p)), p2).
Inductive point := Found (y1 p2 : R) | Not_a_number | Running.
(** 96-122: the loop, which ends when y1 moves by no more than DBL_EPSILON *)
Fixpoint point_loop (fuel n ib : nat) (y1 : R) : point :=
  match fuel with
  | O => Running
  | S f =>
    match point_step n ib y1 with
    | None => Not_a_number
    | Some (y, p2) => if Rlt_dec dbl_epsilon (Rabs (y - y1)) then point_loop f n ib y else Found y p2
    end
  end.
(** 93-94: where the loop starts *)
Definition point_start (i ia : nat) (da : R) : R := let db := (4 * INR i + 3) / INR ia * PI in cos (db + da / tan db).
(** 73-126 *)
Definition gauss_leg_point (fuel n i ia ib : nat) (da : R) : point := point_loop fuel n ib (point_start i ia da).

(** x and w *)
Definition rule : Type := ((nat -> R) * (nat -> R))%type.
(** 130-171, with the function that finds the points: (order, i) to (y1, p2) *)
Definition gauss_leg_quad_with (at_ : nat -> nat -> R * R) (n : nat) (xw : rule) : rule :=
  let nn := (2 * n)%nat in
  loop n (fun ii s => let '(x, w) := s in
    let i := (n + ii)%nat in
    let '(y1, p2) := at_ nn i in
    let dd := INR nn * p2 in
    (set1 x ii (- y1), set1 w ii (2 * (1 - y1 * y1) / (dd * dd)))) xw.
(** 175-220 *)
Definition gauss_leg_quad2_with (at_ : nat -> nat -> R * R) (n : nat) (xw : rule) : rule :=
  let nn := ((n + 1) / 2)%nat in
  loop nn (fun i s => let '(x, w) := s in
    let ii := (n - 1 - i)%nat in
    let '(y1, p2) := at_ n i in
    let db := / 2 * y1 in
    let x := set1 (set1 x i (/ 2 - db)) ii (/ 2 + db) in
    let dc := INR n * p2 in
    let w := set1 w i ((1 - 2 * db * y1) / (dc * dc)) in
    (x, set1 w ii (w i))) xw.
(** The point that the code finds: ia, ib and da of 152-155 and 197-200; zeros stand for what is no number *)
Definition code_point (fuel nn i : nat) : point :=
  gauss_leg_point fuel nn i (4 * nn + 2) (nn * (nn + 1)) ((INR nn - 1) / (8 * INR nn ^ 3)).
Definition code_points (fuel : nat) (nn i : nat) : R * R := match code_point fuel nn i with Found y p => (y, p) | _ => (0, 0) end.

(** The options of xrtm_create, src/xrtm_interface.c:1108-1123; the first that is set counts.  [dbl_max] is DBL_MAX. *)
Record quad_options := { quad_norm : bool; quad_doub : bool; quad_lobatto : bool }.
Definition create_quadrature (dbl_max : R) (at_ : nat -> nat -> R * R) (o : quad_options) (n : nat) (xw : rule) : rule :=
  if quad_norm o then gauss_leg_quad_with at_ n xw
  else if quad_doub o then gauss_leg_quad2_with at_ n xw
  else if quad_lobatto o then loop n (fun i s => let '(x, w) := s in (set1 x i (- dbl_max), set1 w i (- dbl_max))) xw
  else xw.
(** qf, src/xrtm_interface.c:1132-1135 *)
Definition create_qf (n : nat) (xw : rule) : R := / 2 / loop n (fun i a => a + fst xw i * snd xw i) 0.
(** kernel_qx and kernel_qw, src/xrtm_interface.c:1196-1202 *)
Definition create_kernel_quadrature (at_ : nat -> nat -> R * R) (n : nat) (xw : rule) : rule :=
  let '(x, w) := gauss_leg_quad2_with at_ n xw in (loop n (fun i x => set1 x i (x i * PI)) x, w).
