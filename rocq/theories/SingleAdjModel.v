(** The adjoint of single scattering: ssr_up_layer_a, single_scattered_radiance_up_a, ssr_dn_layer_a, single_scattered_radiance_dn_a and
    the adjoints of the corrections, src/xrtm_single_a.c:45-525.

    The arithmetic is over the reals.  Element [jj] of the arrays belongs to the direction [umus[jj / n_stokes]], written [mu jj]; the two
    loops over directions and Stokes parameters are one loop over the [m = n_umus * n_stokes] elements.  What depends on the direction
    only is computed again for each element.  I_ss_a is cleared at the end (258, 474); the model leaves it out of the result. *)
From Coq Require Import Reals Bool Arith.
From Verif Require Import Base DerivsModel DeltaMModel BeamModel SingleModel.
Open Scope R_scope.

(** omega, ltau, btran, as_0 and P[layer][element]; the same record holds adjoints and directions *)
Record atm := { t_om : nat -> R; t_lt : nat -> R; t_bt : nat -> R; t_sl : nat -> R; t_ph : nat -> nat -> R }.
(** What one element sees *)
Definition view (x : atm) (jj : nat) : lay :=
  {| om := t_om x; lt := t_lt x; ph := fun i => t_ph x i jj; bt := t_bt x; sl := t_sl x |}.

(** The adjoints written by a layer: those of the inputs, I_a and utau_a *)
Record wk := { w : atm; ia : nat -> R; ua : R }.
Definition inc_om (i : nat) (y : R) (s : wk) : wk :=
  {| w := {| t_om := add1 (t_om (w s)) i y; t_lt := t_lt (w s); t_bt := t_bt (w s); t_sl := t_sl (w s); t_ph := t_ph (w s) |}; ia := ia s; ua := ua s |}.
Definition inc_lt (i : nat) (y : R) (s : wk) : wk :=
  {| w := {| t_om := t_om (w s); t_lt := add1 (t_lt (w s)) i y; t_bt := t_bt (w s); t_sl := t_sl (w s); t_ph := t_ph (w s) |}; ia := ia s; ua := ua s |}.
Definition inc_bt (i : nat) (y : R) (s : wk) : wk :=
  {| w := {| t_om := t_om (w s); t_lt := t_lt (w s); t_bt := add1 (t_bt (w s)) i y; t_sl := t_sl (w s); t_ph := t_ph (w s) |}; ia := ia s; ua := ua s |}.
Definition inc_sl (i : nat) (y : R) (s : wk) : wk :=
  {| w := {| t_om := t_om (w s); t_lt := t_lt (w s); t_bt := t_bt (w s); t_sl := add1 (t_sl (w s)) i y; t_ph := t_ph (w s) |}; ia := ia s; ua := ua s |}.
Definition inc_ph (i jj : nat) (y : R) (s : wk) : wk :=
  {| w := {| t_om := t_om (w s); t_lt := t_lt (w s); t_bt := t_bt (w s); t_sl := t_sl (w s); t_ph := set1 (t_ph (w s)) i (add1 (t_ph (w s) i) jj y) |};
     ia := ia s; ua := ua s |}.
Definition inc_ia (jj : nat) (y : R) (s : wk) : wk := {| w := w s; ia := add1 (ia s) jj y; ua := ua s |}.
Definition inc_ua (y : R) (s : wk) : wk := {| w := w s; ia := ia s; ua := ua s + y |}.

Section Layers.
Variables (x : atm) (mu : nat -> R) (m : nat).

(** 81-122: one element; [I] is what the forward run saved, [g] is I_ss_a *)
Definition up_elem_a (i : nat) (utau : R) (I g : nat -> R) (jj : nat) (s : wk) : wk :=
  let a := exp (- utau * t_sl x i) in
  let c := t_lt x i - utau in
  let d := exp (- c * t_sl x i) in
  let e := exp (- c / mu jj) in
  let a_save := (1 - e * d) / (1 / mu jj + t_sl x i) in
  let s := inc_ia jj (g jj * e) s in                                                                  (* 88 *)
  let s := inc_lt i (- (I jj * g jj / mu jj * e)) s in                                                (* 90 *)
  let s := inc_ua (I jj * g jj / mu jj * e) s in                                                      (* 92 *)
  let b_save_a := g jj in
  let s := inc_bt i (b_save_a * a * t_om x i * t_ph x i jj * a_save) s in                             (* 96 *)
  let s := inc_ua (- (b_save_a * t_bt x i * t_sl x i * a * t_om x i * t_ph x i jj * a_save)) s in     (* 98 *)
  let s := inc_sl i (- (b_save_a * t_bt x i * utau * a * t_om x i * t_ph x i jj * a_save)) s in       (* 100 *)
  let s := inc_om i (b_save_a * t_bt x i * a * t_ph x i jj * a_save) s in                             (* 102 *)
  let s := inc_ph i jj (b_save_a * t_bt x i * a * t_om x i * a_save) s in                             (* 104 *)
  let a_save_a := b_save_a * t_bt x i * a * t_om x i * t_ph x i jj in
  let t := a_save_a / (1 / mu jj + t_sl x i) in
  let s := inc_lt i (t / mu jj * e * d) s in                                                          (* 110 *)
  let s := inc_ua (- (t / mu jj * e * d)) s in                                                        (* 112 *)
  let s := inc_lt i (t * e * t_sl x i * d) s in                                                       (* 114 *)
  let s := inc_ua (- (t * e * t_sl x i * d)) s in                                                     (* 116 *)
  let s := inc_sl i (t * e * c * d) s in                                                              (* 118 *)
  inc_sl i (- (t * a_save)) s.                                                                        (* 120 *)
(** 303-333 *)
Definition dn_elem_a (i : nat) (utau : R) (I g : nat -> R) (jj : nat) (s : wk) : wk :=
  let b := exp (- utau * t_sl x i) in
  let c := exp (- utau / mu jj) in
  let c_save := (c - b) / (t_sl x i - 1 / mu jj) in
  let s := inc_ia jj (g jj * c) s in                                                                  (* 303 *)
  let s := inc_ua (- (I jj * g jj / mu jj * c)) s in                                                  (* 305 *)
  let d_save_a := g jj in
  let s := inc_bt i (d_save_a * t_om x i * t_ph x i jj * c_save) s in                                 (* 311 *)
  let s := inc_om i (d_save_a * t_bt x i * t_ph x i jj * c_save) s in                                 (* 313 *)
  let s := inc_ph i jj (d_save_a * t_bt x i * t_om x i * c_save) s in                                 (* 315 *)
  let c_save_a := d_save_a * t_bt x i * t_om x i * t_ph x i jj in
  let t := c_save_a / (t_sl x i - 1 / mu jj) in
  let s := inc_ua (- (t / mu jj * c)) s in                                                            (* 321 *)
  let s := inc_ua (t * t_sl x i * b) s in                                                             (* 325 *)
  let s := inc_sl i (t * utau * b) s in                                                               (* 329 *)
  inc_sl i (- (t * c_save)) s.                                                                        (* 331 *)
(** 76-126 and 291-338 *)
Definition layer_a (elem_a : nat -> R -> (nat -> R) -> (nat -> R) -> nat -> wk -> wk) (i : nat) (utau : R) (I g : nat -> R) (s : atm * (nat -> R))
    : atm * (nat -> R) :=
  let s := loop m (elem_a i utau I g) {| w := fst s; ia := snd s; ua := 0 |} in
  let s := inc_lt i (ua s * utau / t_lt x i) s in
  (w s, ia s).
Definition up_layer_a := layer_a up_elem_a.
Definition dn_layer_a := layer_a dn_elem_a.

(** The state of the loops: the adjoints of the inputs, I_a and the place looked at next (going down through the places: [i_ulevel + 1]) *)
Record sta := { sw : atm; sa : nat -> R; sp : nat }.
Variables (n : nat) (q : places).
(** 207-208, 233-234, 423-424, 449-450 *)
Definition join_in (I g : nat -> R) : nat -> R := fun jj => if Nat.ltb jj m then I jj + g jj else I jj.
Section Up.
Variables (saved : nat -> nat -> R) (g : nat -> nat -> R).
(** 220-224; [r]: n_ulevels - i_ulevel *)
Fixpoint up_taus_a (i r p : nat) (s : atm * (nat -> R)) : nat * (atm * (nat -> R)) :=
  match r with
  | O => (p, s)
  | S r => if Nat.eqb i (ul q p) then up_taus_a i r (S p) (up_layer_a i (ut q p) (saved i) (g p) s) else (p, s)
  end.
(** 205-226 *)
Definition up_one_a (i : nat) (s : sta) : sta :=
  let here := negb (taus q) && (Nat.ltb (sp s) (nu q) && Nat.eqb i (ul q (sp s))) in
  let I := if here then join_in (sa s) (g (sp s)) else sa s in
  let p := if here then (sp s + 1)%nat else sp s in
  let r := up_layer_a i 0 (saved i) I (sw s, fun _ => 0) in
  let r := if taus q then up_taus_a i (nu q - p) p r else (p, r) in
  {| sw := fst (snd r); sa := snd (snd r); sp := fst r |}.
Fixpoint up_loop_a (i k : nat) (s : sta) : sta := match k with O => s | S k => up_loop_a (i + 1) k (up_one_a i s) end.
(** 232-237 *)
Definition up_end_a (s : sta) : nat -> R :=
  if Nat.ltb (sp s) (nu q) && Nat.eqb n (ul q (sp s)) then
    if taus q then if Req_EM_T (ut q (sp s)) 0 then join_in (sa s) (g (sp s)) else sa s else join_in (sa s) (g (sp s))
  else sa s.
End Up.
Section Down.
Variables (saved : nat -> nat -> R) (g : nat -> nat -> R).
(** 436-440 *)
Fixpoint dn_taus_a (i p : nat) (s : atm * (nat -> R)) : nat * (atm * (nat -> R)) :=
  match p with
  | O => (O, s)
  | S k => if Nat.eqb i (ul q k) then dn_taus_a i k (dn_layer_a i (ut q k) (saved i) (g k) s) else (p, s)
  end.
(** 421-442.  Line 435 tests i_ulevel < n_ulevels, not i_ulevel >= 0.  [None]: ulevels[-1] is read. *)
Definition dn_one_a (i : nat) (s : sta) : option sta :=
  let here := negb (taus q) && match sp s with O => false | S k => Nat.eqb (i + 1) (ul q k) end in
  let I := if here then join_in (sa s) (g (sp s - 1)%nat) else sa s in
  let p := if here then (sp s - 1)%nat else sp s in
  let r := dn_layer_a i (t_lt x i) (saved i) I (sw s, fun _ => 0) in
  if taus q then
    match p with
    | O => None
    | S _ => let r := dn_taus_a i p r in Some {| sw := fst (snd r); sa := snd (snd r); sp := fst r |}
    end
  else Some {| sw := fst r; sa := snd r; sp := p |}.
(** for (i = k - 1; i >= 0; --i) *)
Fixpoint dn_loop_a (k : nat) (s : sta) : option sta :=
  match k with O => Some s | S k => match dn_one_a k s with Some s => dn_loop_a k s | None => None end end.
(** 448-453 *)
Definition dn_end_a (s : sta) : nat -> R :=
  match sp s with
  | O => sa s
  | S k => if Nat.eqb 0 (ul q k) then
             if taus q then if Req_EM_T (ut q k) 0 then join_in (sa s) (g k) else sa s else join_in (sa s) (g k)
           else sa s
  end.
End Down.

(** dvec_copy(save->I[i], I), src/xrtm_single.c:260-261 and 551-552, one element *)
Fixpoint up_saves (y : lay) (mu : R) (i2 k : nat) (I : elem) (o : nat -> R) : nat -> R :=
  match k with
  | O => o
  | S k => up_saves y mu i2 k (up_layer y (fun _ => y) (fun _ _ => false) mu (i2 + k) 0 I) (set1 o (i2 + k) (val I))
  end.
Fixpoint dn_saves (y : lay) (mu : R) (i1 k : nat) (I : elem) (o : nat -> R) : nat -> R :=
  match k with
  | O => o
  | S k => dn_saves y mu (i1 + 1) k (dn_layer y (fun _ => y) (fun _ _ => false) mu i1 (lt y i1) I) (set1 o i1 (val I))
  end.
Variable F0 : R.
Variable I_in : nat -> R.
Definition entry (jj : nat) : elem := divided (unit_of F0 (mu jj)) {| val := I_in jj; der := fun _ => 0 |}.
Definition saved_up (i jj : nat) : R := up_saves (view x jj) (mu jj) (ul q 0) (n - ul q 0) (entry jj) (fun _ => 0) i.
Definition saved_dn (i jj : nat) : R := dn_saves (view x jj) (mu jj) 0 (dn_end q) (entry jj) (fun _ => 0) i.

(** 134-259; [I_ss_a] and the adjoints to add to.  [None]: the forward run returned before it saved anything (src/xrtm_single.c:161-166),
    save->I is not allocated. *)
Definition single_up_a (I_ss_a : nat -> nat -> R) (a : atm) (in_a : nat -> R) : option (atm * (nat -> R)) :=
  if Req_EM_T F0 0 then None
  else let b jj := unit_of F0 (mu jj) in
    let g k jj := I_ss_a k jj * b jj in
    let s := up_loop_a saved_up g (ul q 0) (n - ul q 0) {| sw := a; sa := fun _ => 0; sp := 0 |} in
    let I := up_end_a g s in
    Some (sw s, fun jj => if Nat.ltb jj m then in_a jj + I jj / b jj else in_a jj).
(** 346-475; line 466 assigns where line 250 adds *)
Definition single_dn_a (I_ss_a : nat -> nat -> R) (a : atm) (in_a : nat -> R) : option (atm * (nat -> R)) :=
  if Req_EM_T F0 0 then None
  else let b jj := unit_of F0 (mu jj) in
    let g k jj := I_ss_a k jj * b jj in
    match dn_loop_a saved_dn g (dn_end q) {| sw := a; sa := fun _ => 0; sp := nu q |} with
    | Some s => let I := dn_end_a g s in Some (sw s, fun jj => if Nat.ltb jj m then I jj / b jj else in_a jj)
    | None => None
    end.
End Layers.

(** 482-500 and 507-525: omega and P of the truncated run, omega2 and P of the full run; the adjoints of the rest are shared *)
Record scatm := { c_om : nat -> R; c_ph : nat -> nat -> R }.
Definition put_scat (x : atm) (c : scatm) : atm := {| t_om := c_om c; t_lt := t_lt x; t_bt := t_bt x; t_sl := t_sl x; t_ph := c_ph c |}.
Definition get_scat (x : atm) : scatm := {| c_om := t_om x; c_ph := t_ph x |}.
Definition correction_a (run : atm -> (nat -> nat -> R) -> atm -> (nat -> R) -> option (atm * (nat -> R)))
    (x : atm) (trun full : scatm) (I_c_a : nat -> nat -> R) (a : atm) (a_trun a_full : scatm) (in_a : nat -> R)
    : option (atm * scatm * scatm * (nat -> R)) :=
  match run (put_scat x trun) (fun k jj => -1 * I_c_a k jj) (put_scat a a_trun) in_a with
  | None => None
  | Some (a1, in1) =>
      match run (put_scat x full) I_c_a (put_scat a1 a_full) in1 with
      | None => None
      | Some (a2, in2) => Some (a2, get_scat a1, get_scat a2, in2)
      end
  end.
