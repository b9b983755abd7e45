(** The two-stream solver, rtm_two_stream of src/xrtm_two_stream.c, with the output at the streams themselves (n_umus == 0, lines 868-1030), the dense
    matrix (SOLVER is LAPACK_GENERAL_SOLVER, line 24) and without derivatives.
    Numbers are reals: rounding is not modelled.  External: [lu N a], the pair dmat_getrf / dgetrs_ for the matrix [a] of order [N]; [None] when the
    factorisation or the solution ends the process (exit(1), 680-683).  The matrix is stored by rows, LAPACK sees its transpose and is asked (argument
    "t") to solve with the transpose of that. *)
From Coq Require Import Reals Bool Arith List ZArith.
From Verif Require Import Base DeltaMSpec AddingModel EigModel TwoSpec.
Import ListNotations.
Open Scope R_scope.

(** What a run ends with: an answer; a number on the way that is no real number (division by zero, root of a negative number), after which the code
    goes on and nothing is said about its output; the end of the process; undefined behaviour *)
Inductive run (A : Type) := Answer (a : A) | No_number | Exits | Undefined.
Arguments Answer {A} _. Arguments No_number {A}. Arguments Exits {A}. Arguments Undefined {A}.
Definition bind {A B} (x : run A) (f : A -> run B) : run B :=
  match x with Answer a => f a | No_number => No_number | Exits => Exits | Undefined => Undefined end.

(** What the code computes for a layer: nu, X_p, X_m, Lambda, F_p, F_m *)
Record wave := { w_nu : R; w_Xp : R; w_Xm : R; w_L : R; w_Fp : R; w_Fm : R }.

Section Solver.
Variable lu : nat -> mat -> option (vec -> vec).
Variable d : deck.
Variable n_coef : nat.                 (* the length of the arrays of coefficients, xrtm_interface.c:1256 *)
Variables (solar : bool) (m : nat).    (* m: n_layers - 1 *)
Variable g : ground.

(** coef[i][0][1], 318-333: the index 1 whatever the length of the array *)
Definition coefficient (k : nat) : run R := if (1 <? n_coef)%nat then Answer (t_coef d k 1%nat) else Undefined.
(** sqrt *)
Definition root (x : R) : run R := if Rlt_dec x 0 then No_number else Answer (sqrt x).
(** x / y *)
Definition over (x y : R) : run R := if Req_EM_T y 0 then No_number else Answer (x / y).
(** 306-338: P_qq_pp, P_qq_mp, P_q0_mm, P_q0_pm and a6 *)
Definition phases (chi : R) : run (R * R * R * R * R) :=
  let qx := t_qx d in let mu_0 := t_mu0 d in
  let a1 := qx * qx in let a2 := 1 - a1 in let a3 := qx * mu_0 in
  if (t_four d =? 0)%nat then
    let a6 := chi * a1 in let b6 := chi * a3 in
    bind (over (1 / 2) qx) (fun c6 => Answer (1 + a6, 1 - a6, 1 + b6, 1 - b6, c6))
  else
    bind (root (1 - qx * qx)) (fun sqrt1 => bind (root (1 - mu_0 * mu_0)) (fun sqrt2 =>
    let a4 := sqrt1 * sqrt2 in
    let a6 := chi * a2 in let b6 := chi * a4 in
    bind (over (1 / 4) qx) (fun c6 => Answer (a6, a6, b6, b6, c6)))).
(** 340-370 *)
Definition layer (k : nat) : run wave :=
  bind (coefficient k) (fun chi =>
  bind (phases chi) (fun '(P_qq_pp, P_qq_mp, P_q0_mm, P_q0_pm, a6) =>
  let qx := t_qx d in
  let alpha := -1 / qx + a6 * t_omega d k * P_qq_pp in
  let beta := - a6 * t_omega d k * P_qq_mp in
  let a7 := alpha * alpha in let a8 := beta * beta in
  bind (root (a7 - a8)) (fun nu =>
  let a9 := alpha + beta in
  bind (over (nu + a9) (nu - a9)) (fun X_p =>
  let Lambda := exp (- nu * t_ltau d k) in
  if solar then
    let a5 := t_F0 d / (4 * PI) / qx in
    let a10 := a5 * t_omega d k * t_btran d k in
    let a11 := a10 * P_q0_pm in let a12 := a10 * P_q0_mm in
    let a13 := t_as0 d k + alpha in let a14 := t_as0 d k - alpha in
    let a15 := a13 * a14 + a8 in
    bind (over (a11 * a13 + beta * a12) a15) (fun F_p =>
    bind (over (a12 * - a14 + beta * a11) a15) (fun F_m =>
    Answer {| w_nu := nu; w_Xp := X_p; w_Xm := 1; w_L := Lambda; w_Fp := 0 + F_p; w_Fm := 0 + F_m |}))
  else Answer {| w_nu := nu; w_Xp := X_p; w_Xm := 1; w_L := Lambda; w_Fp := 0; w_Fm := 0 |})))).
(** The loop over the layers, 316 *)
Fixpoint layers (k : nat) : run (nat -> wave) :=
  match k with
  | O => Answer (fun _ => {| w_nu := 0; w_Xp := 0; w_Xm := 0; w_L := 0; w_Fp := 0; w_Fm := 0 |})
  | S k => bind (layers k) (fun ws => bind (layer k) (fun w => Answer (fun i => if (i =? k)%nat then w else ws i)))
  end.

(** Assignments to elements of the matrix, of a value or of another element *)
Inductive step := Put (r c : nat) (x : R) | Copy (r c r' c' : nat).
Definition order : nat := (2 * S m)%nat.
Definition inside (r c : nat) : bool := (r <? order)%nat && (c <? order)%nat.
Definition set (r c : nat) (x : R) (a : mat) : mat := fun p q => if (p =? r)%nat && (q =? c)%nat then x else a p q.
Definition assign (s : step) (a : mat) : run mat :=
  match s with
  | Put r c x => if inside r c then Answer (set r c x a) else Undefined
  | Copy r c r' c' => if inside r c && inside r' c' then Answer (set r c (a r' c') a) else Undefined
  end.
Fixpoint assigns (l : list step) (a : mat) : run mat := match l with [] => Answer a | s :: l => bind (assign s a) (assigns l) end.

Section Waves.
Variable ws : nat -> wave.
Notation Xp k := (w_Xp (ws k)).
Notation Xm k := (w_Xm (ws k)).
Notation La k := (w_L (ws k)).
(** 462-463 *)
Definition top_row : list step := [Put 0 0 (- Xm 0%nat); Put 0 1 (- Xp 0%nat * La 0%nat)].
(** 470-473 *)
Definition first_rows : list step :=
  [Put 1 0 (Xp 0%nat * La 0%nat); Put 1 1 (Xm 0%nat); Put 2 0 (- Xm 0%nat * La 0%nat); Put 2 1 (- Xp 0%nat)].
(** 478-481 and 492-495, with ii = 2 i - 1, jj = 2 i *)
Definition upper_rows (i : nat) : list step := let ii := (2 * i - 1)%nat in let jj := (2 * i)%nat in
  [Put ii jj (- Xp i); Put ii (jj + 1) (- Xm i * La i); Put (ii + 1) jj (Xm i); Put (ii + 1) (jj + 1) (Xp i * La i)].
(** 483-486 *)
Definition lower_rows (i : nat) : list step := let ii := (2 * i - 1)%nat in let jj := (2 * i)%nat in
  [Copy (ii + 2) jj (ii + 1) (jj + 1); Put (ii + 2) (jj + 1) (Xm i); Copy (ii + 3) jj ii (jj + 1); Put (ii + 3) (jj + 1) (- Xp i)].
(** 502-509 *)
Definition V_p : R := match g with None => Xp m | Some (r, _) => Xp m - r * - Xm m end.
Definition V_m : R := match g with None => Xm m | Some (r, _) => Xm m - r * - Xp m end.
(** 511-512 *)
Definition last_row : list step := [Put (2 * S m - 1) (2 * S m - 2) (V_p * La m); Put (2 * S m - 1) (2 * S m - 2 + 1) V_m].
(** 453-512 *)
Definition steps : list step :=
  top_row ++
  (if (1 <? S m)%nat then first_rows ++ flat_map (fun i => upper_rows i ++ lower_rows i) (seq 1 (m - 1)) ++ upper_rows m else []) ++
  last_row.
Definition matrix : run mat := assigns steps zmat.

(** b[i] = x; dvec_zero before, 645 *)
Definition vset (r : nat) (x : R) (b : vec) : vec := fun p => if (p =? r)%nat then x else b p.
(** 645-668; every index is below 2 * n_layers *)
Definition rhs : vec :=
  if solar then
    let b := vset 0 (- w_Fm (ws 0%nat)) zvec in
    let b := fold_left (fun b i => let ii := (2 * i - 1)%nat in
      vset (ii + 1) (w_Fm (ws i) - w_Fm (ws (i - 1)%nat) * t_atran d (i - 1)%nat)
        (vset ii (w_Fp (ws i) - w_Fp (ws (i - 1)%nat) * t_atran d (i - 1)%nat) b)) (seq 1 m) b in
    let solfac := t_F0 d * t_mu0 d / PI in
    let a1 := match g with None => 0 | Some (_, r0) => solfac * t_btran d (S m) * r0 end in
    let a2 := match g with None => w_Fp (ws m) | Some (r, _) => w_Fp (ws m) - r * w_Fm (ws m) end in
    vset (2 * S m - 1) (a1 - a2 * t_atran d m) b
  else zvec.
(** 674-685 *)
Definition amplitudes : run vec :=
  bind (matrix) (fun a => match lu order a with Some f => Answer (f rhs) | None => Exits end).

(** 871-880 and 916-925: I_p[i][0], I_m[i][0] at the level ii *)
Definition at_level (x : vec) (ii : nat) : run (R * R) :=
  if (S m <? ii)%nat then Undefined
  else if negb (ii =? S m)%nat then
    let iii := (ii * 2 * 1)%nat in
    let a1 := x iii in let a2 := x (iii + 1)%nat * La ii in
    Answer (a1 * Xp ii + a2 * Xm ii + w_Fp (ws ii), a1 * - Xm ii + a2 * - Xp ii + w_Fm (ws ii))
  else
    let ii := m in let iii := (ii * 2 * 1)%nat in
    let a1 := x iii * La ii in let a2 := x (iii + 1)%nat in
    Answer (a1 * Xp ii + a2 * Xm ii + w_Fp (ws ii) * t_atran d ii, a1 * - Xm ii + a2 * - Xp ii + w_Fm (ws ii) * t_atran d ii).
(** 968-979: output at the depth [t] below the top of the layer ii.  as_0 is read whether there is a beam or not; it is multiplied by a source of zero
    then. *)
Definition at_depth (x : vec) (ii : nat) (t : R) : run (R * R) :=
  if (m <? ii)%nat then Undefined
  else
    let iii := (ii * 2 * 1)%nat in
    let uatran := exp (- t * t_as0 d ii) in
    let a1 := x iii * exp (- w_nu (ws ii) * (t - 0)) in
    let a2 := x (iii + 1)%nat * exp (- w_nu (ws ii) * (t_ltau d ii - t)) in
    Answer (a1 * Xp ii + a2 * Xm ii + w_Fp (ws ii) * uatran, a1 * - Xm ii + a2 * - Xp ii + w_Fm (ws ii) * uatran).
End Waves.

(** The whole call, for one level or depth of output: the levels do not depend on each other.  The flag for thermal sources is not read. *)
Definition two_stream_level (ii : nat) : run (R * R) := bind (layers (S m)) (fun ws => bind (amplitudes ws) (fun x => at_level ws x ii)).
Definition two_stream_depth (ii : nat) (t : R) : run (R * R) := bind (layers (S m)) (fun ws => bind (amplitudes ws) (fun x => at_depth ws x ii t)).
End Solver.
