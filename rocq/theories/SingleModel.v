(** Single scattering of the solar beam: ssr_up_layer, single_scattered_radiance_up, ssr_dn_layer, single_scattered_radiance_dn and the
    n_t_tms corrections, src/xrtm_single.c:23-758.

    The arithmetic is over the reals.  Every element [kk = i * n_stokes + k] of the arrays is computed from element [kk] of the arrays
    read and from [umus[i]] alone, so the model is written for one element: [mu] stands for [umus[i]] and [ph] for [P[.][kk]].  A layer
    reads [I] while it writes the derivatives and writes the value last; the calls that work in place (263-272, 554-563) depend on it.
    The save tree is in SaveTreeModel.v.  [atran] and [derivs_beam] are parameters that the code does not use. *)
From Coq Require Import Reals Bool Arith.
From Verif Require Import Base.
Open Scope R_scope.

(** Single scattering albedo, optical thickness, phase function, transmission of the beam to the top and inverse slant of each layer;
    the same record holds the derivatives of these *)
Record lay := { om : nat -> R; lt : nat -> R; ph : nat -> R; bt : nat -> R; sl : nat -> R }.
(** What an element holds: its value and its derivatives *)
Record elem := { val : R; der : nat -> R }.
(** Where output is wanted: n_ulevels, ulevels, utaus, utau_output *)
Record places := { nu : nat; ul : nat -> nat; ut : nat -> R; taus : bool }.
(** derivs_layers[i][j] *)
Definition varied := nat -> nat -> bool.

(** 23-107 *)
Definition up_layer (x : lay) (dx : nat -> lay) (v : varied) (mu : R) (i : nat) (utau : R) (I : elem) : elem :=
  let a := exp (- utau * sl x i) in
  let b := bt x i * a * om x i in
  let c := lt x i - utau in
  let d := exp (- c * sl x i) in
  let b_l j := let utau_l := utau * lt (dx j) i / lt x i in
    (bt (dx j) i + bt x i * (- utau_l * sl x i - utau * sl (dx j) i)) * (a * om x i) + bt x i * a * om (dx j) i in
  let c_l j := lt (dx j) i - utau * lt (dx j) i / lt x i in
  let d_l j := (- c_l j * sl x i - c * sl (dx j) i) * d in
  let e := exp (- c / mu) in
  let f := 1 / mu + sl x i in
  let g := (1 - e * d) / f in
  let h := b * g in
  let p := e / mu in
  {| der := fun j => let e_l := - c_l j * p in
       let p_l := g * b_l j + b * (- e_l * d - e * d_l j - g * sl (dx j) i) / f in
       let r := e_l * val I + e * der I j + ph x i * p_l in
       if v i j then r + b * ph (dx j) i * g else r;
     val := e * val I + h * ph x i |}.

(** 317-395 *)
Definition dn_layer (x : lay) (dx : nat -> lay) (v : varied) (mu : R) (i : nat) (utau : R) (I : elem) : elem :=
  let a := bt x i * om x i in
  let b := exp (- utau * sl x i) in
  let utau_l j := utau * lt (dx j) i / lt x i in
  let a_l j := bt (dx j) i * om x i + bt x i * om (dx j) i in
  let b_l j := (- utau_l j * sl x i - utau * sl (dx j) i) * b in
  let c := exp (- utau / mu) in
  let d := sl x i - 1 / mu in
  let e := (c - b) / d in
  let f := a * e in
  let g := c / mu in
  {| der := fun j => let c_l := - utau_l j * g in
       let g_l := e * a_l j + a * (c_l - b_l j - e * sl (dx j) i) / d in
       let r := c_l * val I + c * der I j + ph x i * g_l in
       if v i j then r + a * ph (dx j) i * e else r;
     val := c * val I + f * ph x i |}.

(** 191-209 and 479-497: the field at the boundary in units of [b]; 291-306 and 582-597: back again *)
Definition unit_of (F0 mu : R) : R := 1 / mu * (F0 / (4 * PI)).
Definition divided (b : R) (e : elem) : elem := {| val := val e / b; der := fun j => der e j / b |}.
Definition times (b : R) (e : elem) : elem := {| val := val e * b; der := fun j => der e j * b |}.

(** The arrays written; [None]: not written *)
Definition outs := nat -> option elem.
Definition put (o : outs) (k : nat) (e : elem) : outs := fun i => if Nat.eqb i k then Some e else o i.
(** The state of the loops: the field, the place looked at next and what has been written.  Going up the place is [i_ulevel + 1]. *)
Record st := { fld : elem; place : nat; out : outs }.

Section Walk.
Variables (x : lay) (dx : nat -> lay) (v : varied) (mu : R) (n : nat) (q : places).

(** 241-257 *)
Fixpoint up_taus (i : nat) (I : elem) (p : nat) (o : outs) : nat * outs :=
  match p with
  | O => (O, o)
  | S m => if Nat.eqb i (ul q m) then up_taus i I m (put o m (up_layer x dx v mu i (ut q m) I)) else (p, o)
  end.
(** 239-285, one layer.  [None]: ulevels[-1] is read. *)
Definition up_one (i : nat) (s : st) : option st :=
  let s := if taus q then let r := up_taus i (fld s) (place s) (out s) in {| fld := fld s; place := fst r; out := snd r |} else s in
  let I := up_layer x dx v mu i 0 (fld s) in
  if taus q then Some {| fld := I; place := place s; out := out s |}
  else match place s with
       | O => None
       | S m => Some (if Nat.eqb i (ul q m) then {| fld := I; place := m; out := put (out s) m I |} else {| fld := I; place := S m; out := out s |})
       end.
(** for (i = i2 + k - 1; i >= i2; --i) *)
Fixpoint up_loop (i2 k : nat) (s : st) : option st :=
  match k with
  | O => Some s
  | S k => match up_one (i2 + k) s with Some s => up_loop i2 k s | None => None end
  end.
(** 215-233 *)
Definition up_start (I : elem) : st :=
  let m := (nu q - 1)%nat in
  let s := {| fld := I; place := nu q; out := fun _ => None |} in
  let here := {| fld := I; place := m; out := put (out s) m I |} in
  if taus q then (if Nat.eqb n (ul q m) then if Req_EM_T (ut q m) 0 then here else s else s)
  else if Nat.eqb n (ul q m) then here else s.

(** 532-548; [r]: n_ulevels - i_ulevel *)
Fixpoint dn_taus (i : nat) (I : elem) (r : nat) (p : nat) (o : outs) : nat * outs :=
  match r with
  | O => (p, o)
  | S r => if Nat.eqb i (ul q p) then dn_taus i I r (S p) (put o p (dn_layer x dx v mu i (ut q p) I)) else (p, o)
  end.
(** 530-576, one layer.  [None]: ulevels[n_ulevels] is read. *)
Definition dn_one (i : nat) (s : st) : option st :=
  let s := if taus q then let r := dn_taus i (fld s) (nu q - place s) (place s) (out s) in {| fld := fld s; place := fst r; out := snd r |}
           else s in
  let I := dn_layer x dx v mu i (lt x i) (fld s) in
  if taus q then Some {| fld := I; place := place s; out := out s |}
  else if Nat.ltb (place s) (nu q) then
         Some (if Nat.eqb (i + 1) (ul q (place s)) then {| fld := I; place := place s + 1; out := put (out s) (place s) I |}
               else {| fld := I; place := place s; out := out s |})
       else None.
(** for (i = i1; i < i1 + k; ++i) *)
Fixpoint dn_loop (i1 k : nat) (s : st) : option st :=
  match k with
  | O => Some s
  | S k => match dn_one i1 s with Some s => dn_loop (i1 + 1) k s | None => None end
  end.
(** 503-524 *)
Definition dn_start (I : elem) : st :=
  let s := {| fld := I; place := 0; out := fun _ => None |} in
  let here := {| fld := I; place := 1; out := put (out s) 0 I |} in
  if taus q then (if Nat.eqb 0 (ul q 0) then if Req_EM_T (ut q 0) 0 then here else s else s)
  else if Nat.eqb 0 (ul q 0) then here else s.
(** 504-507 *)
Definition dn_end : nat := if taus q then (ul q (nu q - 1) + 1)%nat else ul q (nu q - 1).

(** 114-310 *)
Definition single_up (F0 : R) (I_in : elem) : outs :=
  if Req_EM_T F0 0 then fun k => if Nat.ltb k (nu q) then Some {| val := 0; der := fun _ => 0 |} else None
  else let b := unit_of F0 mu in
    match up_loop (ul q 0) (n - ul q 0) (up_start (divided b I_in)) with
    | Some s => fun k => if Nat.ltb k (nu q) then option_map (times b) (out s k) else None
    | None => fun _ => None
    end.
(** 402-601 *)
Definition single_dn (F0 : R) (I_in : elem) : outs :=
  if Req_EM_T F0 0 then fun k => if Nat.ltb k (nu q) then Some {| val := 0; der := fun _ => 0 |} else None
  else let b := unit_of F0 mu in
    match dn_loop 0 dn_end (dn_start (divided b I_in)) with
    | Some s => fun k => if Nat.ltb k (nu q) then option_map (times b) (out s k) else None
    | None => fun _ => None
    end.
End Walk.

(** 608-680 and 686-758: two runs, with (omega, P_trun) and (omega2, P_full), and what the second has more *)
Definition less (a b : elem) : elem := {| val := val a - val b; der := fun j => der a j - der b j |}.
Definition minus (full trun : outs) : outs := fun k => match full k, trun k with Some f, Some t => Some (less f t) | _, _ => None end.
Definition with_scattering (x : lay) (om' ph' : nat -> R) : lay := {| om := om'; lt := lt x; ph := ph'; bt := bt x; sl := sl x |}.
Record scattering := { s_om : nat -> R; s_ph : nat -> R }.
Definition scat (x : lay) (w : scattering) : lay := with_scattering x (s_om w) (s_ph w).
Definition correction_up (x : lay) (dx : nat -> lay) (trun full : scattering) (dtrun dfull : nat -> scattering) (v : varied)
    (mu : R) (n : nat) (q : places) (F0 : R) (I_in : elem) : outs :=
  let a := single_up (scat x trun) (fun j => scat (dx j) (dtrun j)) v mu n q F0 I_in in
  let c := single_up (scat x full) (fun j => scat (dx j) (dfull j)) v mu n q F0 I_in in
  minus c a.
Definition correction_dn (x : lay) (dx : nat -> lay) (trun full : scattering) (dtrun dfull : nat -> scattering) (v : varied)
    (mu : R) (q : places) (F0 : R) (I_in : elem) : outs :=
  let a := single_dn (scat x trun) (fun j => scat (dx j) (dtrun j)) v mu q F0 I_in in
  let c := single_dn (scat x full) (fun j => scat (dx j) (dfull j)) v mu q F0 I_in in
  minus c a.
