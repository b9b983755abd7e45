(** Flag arrays with summaries, and the derivative bookkeeping of xrtm_update_varied_layers:
    src/xrtm_utility.c:52-341, src/xrtm_interface.c:4935-5448.

    A flag array is a function from positions to values (uchar as Z).  The summary in front
    of each row and in front of the row table (flags_meta_data) is modelled as separate
    fields; the pointer arithmetic that places it there is not modelled.  The contents of an
    array before a builder runs are arbitrary (it comes from malloc). *)
From Coq Require Import ZArith List Bool Lia.
From Verif Require Import Base OptionsModel Dbl HandleModel.
Import ListNotations.
Open Scope Z_scope.

(** [for (i = 0; i < n; ++i) body] *)
Fixpoint loop {S} (n : nat) (body : nat -> S -> S) (s : S) : S :=
  match n with O => s | S m => body m (loop m body s) end.
(** [for (i = n - 1; i >= 0; --i) body] *)
Definition loop_down {S} (n : nat) (body : nat -> S -> S) (s : S) : S :=
  loop n (fun k => body (n - 1 - k)%nat) s.

(** C truth values. *)
Definition tr (z : Z) : bool := negb (z =? 0).

(* ------------------------------------------------------------------------- *)
(** * Summaries                                                               *)

(** src/xrtm_utility.c:52-56 flags_meta_data *)
Record meta := { m_or : Z; m_and : Z; m_count : Z }.
Definition row := nat -> Z.
Definition table := nat -> nat -> Z.

(** src/xrtm_utility.c:167-188 flags_fill_meta *)
Definition fill_meta (f : row) (n : nat) : meta :=
  loop n (fun i m => if tr (f i) then {| m_or := 1; m_and := m_and m; m_count := m_count m + 1 |}
                     else {| m_or := m_or m; m_and := 0; m_count := m_count m |})
       {| m_or := 0; m_and := 0; m_count := 0 |}.

(** src/xrtm_utility.c:219-245 flags_count, flags_or, flags_and *)
Definition flags_count (m : meta) (n : nat) : Z := match n with O => 0 | _ => m_count m end.
Definition flags_or (m : meta) (n : nat) : Z := match n with O => 0 | _ => m_or m end.
Definition flags_and (m : meta) (n : nat) : Z := match n with O => 0 | _ => m_and m end.

(** src/xrtm_utility.c:192-216 flags_fill_meta2: the summaries of the rows and of the table *)
Definition fill_meta2 (f : table) (m n : nat) : (nat -> meta) * meta :=
  let rows := fun i => fill_meta (f i) n in
  (rows,
   loop m (fun i s => if tr (flags_or (rows i) n)
                      then {| m_or := 1; m_and := m_and s; m_count := m_count s + flags_count (rows i) n |}
                      else {| m_or := m_or s; m_and := 0; m_count := m_count s |})
        {| m_or := 0; m_and := 0; m_count := 0 |}).

(** src/xrtm_utility.c:249-275 flags_count2, flags_or2, flags_and2 *)
Definition empty2 (m n : nat) : bool := match m, n with O, _ | _, O => true | _, _ => false end.
Definition flags_count2 (s : meta) (m n : nat) : Z := if empty2 m n then 0 else m_count s.
Definition flags_or2 (s : meta) (m n : nat) : Z := if empty2 m n then 0 else m_or s.
Definition flags_and2 (s : meta) (m n : nat) : Z := if empty2 m n then 0 else m_and s.

(** src/xrtm_utility.c:82-97, 139-162 flags_init, flags_copy, flags_init2, flags_copy2 *)
Definition upd1 (a : row) (i : nat) (v : Z) : row := fun k => if (k =? i)%nat then v else a k.
Definition upd2 (a : table) (i j : nat) (v : Z) : table :=
  fun k l => if (k =? i)%nat && (l =? j)%nat then v else a k l.
Definition flags_init (a : row) (n : nat) (x : Z) : row := loop n (fun i a => upd1 a i x) a.
Definition flags_copy (b a : row) (n : nat) : row := loop n (fun i b => upd1 b i (a i)) b.
Definition flags_init2 (a : table) (m n : nat) (x : Z) : table :=
  loop m (fun i => loop n (fun j a => upd2 a i j x)) a.
Definition flags_copy2 (b a : table) (m n : nat) : table :=
  loop m (fun i => loop n (fun j b => upd2 b i j (a i j))) b.

(* ------------------------------------------------------------------------- *)
(** * Inputs of the builders                                                  *)

(** Members of xrtm_data read by the builders. *)
Record lin := {
  l_layers : nat; l_derivs : nat; l_elem : nat; l_solar : bool; l_thermal : bool; l_reverse : bool;
  l_ncoef : nat -> nat;                      (* n_coef_layer *)
  l_kernels : list Z;
  ltau_l : nat -> nat -> dbl; omega_l : nat -> nat -> dbl;
  coef_l : nat -> nat -> nat -> nat -> dbl;  (* layer, derivative, element, coefficient *)
  amp_l : nat -> nat -> dbl;                 (* kernel, derivative *)
  par_l : nat -> nat -> nat -> dbl;          (* kernel, derivative, parameter *)
  levels_b_l : nat -> nat -> dbl; surface_b_l : nat -> dbl }.

Definition nz (x : dbl) : bool := negb (deq x d_zero).     (* x != 0. *)
Definition below (n : nat) (f : nat -> bool) : bool := existsb f (seq 0 n).

(** src/xrtm_brdf.c:95-105, with the table kernel_needs_fourier *)
Definition kernel_needs_fourier (t : Z) : bool := nth (Z.to_nat t) [false; false; true; true; true; true; true; true; true; true; true] false.
Definition brdf_needs_fourier (ks : list Z) : bool := existsb kernel_needs_fourier ks.

(* ------------------------------------------------------------------------- *)
(** * Builders                                                                *)

(** src/xrtm_interface.c:4944-4970, one entry; the scans stop at the first non-zero value *)
Definition layer_entry (d : lin) (i j : nat) : Z :=
  if nz (ltau_l d i j) then 1
  else if nz (omega_l d i j) then 1
  else if below (l_elem d) (fun k => below (l_ncoef d i) (fun l => nz (coef_l d i j k l))) then 1
  else 0.
(** src/xrtm_interface.c:4972-4994, one entry of the surface row *)
Definition surface_entry (d : lin) (flag : bool) (j : nat) : Z :=
  if flag || brdf_needs_fourier (l_kernels d) then
    if below (length (l_kernels d)) (fun k =>
         nz (amp_l d k j)
         || below (Z.to_nat (kernel_n_params (nth k (l_kernels d) 0))) (fun l => nz (par_l d k j l)))
    then 1 else 0
  else 0.
(** src/xrtm_interface.c:4935-4997 *)
Definition build_layers (d : lin) (flag : bool) (a : table) : table :=
  let a := loop (l_layers d) (fun i => loop (l_derivs d) (fun j a => upd2 a i j (layer_entry d i j))) a in
  loop (l_derivs d) (fun j a => upd2 a (l_layers d) j (surface_entry d flag j)) a.

(** src/xrtm_interface.c:5001-5017 *)
Definition build_total (d : lin) (layers sources : table) (a : table) : table :=
  let a := loop (l_derivs d) (fun j a => upd2 a 0 j 0) a in
  loop (l_layers d + 1) (fun i => loop (l_derivs d) (fun j a =>
    if tr (layers i j) || tr (sources i j) then upd2 a 0 j 1 else a)) a.

(** src/xrtm_interface.c:5021-5042 *)
Definition build_beam (d : lin) (layers : table) (a : table) : table :=
  loop (l_derivs d) (fun j a =>
    fst (loop (l_layers d + 1) (fun i '(a, flag) =>
      let flag := if tr (layers i j) then 1 else flag in
      (upd2 a i j (if tr flag then 1 else 0), flag)) (a, 0))) a.

(** src/xrtm_interface.c:5046-5067 *)
Definition build_thermal (d : lin) (layers : table) (a : table) : table :=
  loop (l_derivs d) (fun j a =>
    let a := loop (l_layers d) (fun i a =>
      upd2 a i j (if tr (layers i j) || nz (levels_b_l d i j) || nz (levels_b_l d (i + 1) j) then 1 else 0)) a in
    upd2 a (l_layers d) j (if tr (layers (l_layers d) j) || nz (surface_b_l d j) then 1 else 0)) a.

(** src/xrtm_interface.c:5071-5088 *)
Definition build_sources (d : lin) (beam thermal : table) (a : table) : table :=
  loop (l_derivs d) (fun j => loop (l_layers d + 1) (fun i a =>
    let v := 0 in
    let v := if l_solar d then Z.lor v (beam i j) else v in
    let v := if l_thermal d then Z.lor v (thermal i j) else v in
    upd2 a i j v)) a.

(** src/xrtm_adding.h:24-46 *)
Definition ADDING_U_U := 0. Definition ADDING_U_S := 1. Definition ADDING_U_L := 2. Definition ADDING_U_B := 3.
Definition ADDING_S_U := 4. Definition ADDING_S_S := 5. Definition ADDING_S_L := 6. Definition ADDING_S_B := 7.
Definition ADDING_L_U := 8. Definition ADDING_L_S := 9. Definition ADDING_L_L := 10. Definition ADDING_L_B := 11.
Definition ADDING_B_U := 12. Definition ADDING_B_S := 13. Definition ADDING_B_L := 14. Definition ADDING_B_B := 15.

(** src/xrtm_interface.c:5123-5175, the chain of tests in source order; 255 when none applies *)
Definition down_code (flag flag2 l s : bool) : Z :=
  if negb flag && negb flag2 && negb l && negb s then ADDING_U_U
  else if negb flag && negb flag2 && negb l && s then ADDING_U_S
  else if negb flag && negb flag2 && l && negb s then ADDING_U_L
  else if negb flag && negb flag2 && l && s then ADDING_U_B
  else if negb flag && flag2 && negb l && negb s then ADDING_S_U
  else if negb flag && flag2 && negb l && s then ADDING_S_S
  else if negb flag && flag2 && l && negb s then ADDING_S_L
  else if negb flag && flag2 && l && s then ADDING_S_B
  else if flag && negb flag2 && negb l && negb s then ADDING_L_U
  else if flag && negb flag2 && negb l && s then ADDING_L_S
  else if flag && negb flag2 && l && negb s then ADDING_L_L
  else if flag && negb flag2 && l && s then ADDING_L_B
  else if flag && flag2 && negb l && negb s then ADDING_B_U
  else if flag && flag2 && negb l && s then ADDING_B_S
  else if flag && flag2 && l && negb s then ADDING_B_L
  else if flag && flag2 && l then ADDING_B_B
  else 255.
(** src/xrtm_interface.c:5106-5113 *)
Definition down_first (l s : bool) : Z :=
  let v := 255 in
  let v := if negb l && negb s then ADDING_U_U else v in
  let v := if negb l && s then ADDING_U_S else v in
  let v := if l && negb s then ADDING_U_L else v in
  if l && s then ADDING_U_B else v.
(** src/xrtm_interface.c:5092-5190 *)
Definition build_down (d : lin) (layers sources : table) (a : table) : table :=
  loop (l_derivs d) (fun j a =>
    let l i := tr (layers i j) in let s i := tr (sources i j) in
    let a := upd2 a 0 j (down_first (l 0%nat) (s 0%nat)) in
    fst (loop (l_layers d) (fun k '(a, (flag, flag2)) =>
      let i := S k in
      (upd2 a i j (down_code flag flag2 (l i) (s i)), (if l i then true else flag, if s i then true else flag2)))
      (a, (if l 0%nat then true else false, if s 0%nat then true else false)))) a.

(** src/xrtm_interface.c:5226-5278 *)
Definition up_code (flag flag2 l s : bool) : Z :=
  if negb l && negb s && negb flag && negb flag2 then ADDING_U_U
  else if negb l && s && negb flag && negb flag2 then ADDING_S_U
  else if l && negb s && negb flag && negb flag2 then ADDING_L_U
  else if l && s && negb flag && negb flag2 then ADDING_B_U
  else if negb l && negb s && negb flag && flag2 then ADDING_U_S
  else if negb l && s && negb flag && flag2 then ADDING_S_S
  else if l && negb s && negb flag && flag2 then ADDING_L_S
  else if l && s && negb flag && flag2 then ADDING_B_S
  else if negb l && negb s && flag && negb flag2 then ADDING_U_L
  else if negb l && s && flag && negb flag2 then ADDING_S_L
  else if l && negb s && flag && negb flag2 then ADDING_L_L
  else if l && s && flag && negb flag2 then ADDING_B_L
  else if negb l && negb s && flag && flag2 then ADDING_U_B
  else if negb l && s && flag && flag2 then ADDING_S_B
  else if l && negb s && flag && flag2 then ADDING_L_B
  else if l && s && flag && flag2 then ADDING_B_B
  else 255.
(** src/xrtm_interface.c:5208-5215 *)
Definition up_first (l s : bool) : Z :=
  let v := 255 in
  let v := if negb l && negb s then ADDING_U_U else v in
  let v := if negb l && s then ADDING_S_U else v in
  let v := if l && negb s then ADDING_L_U else v in
  if l && s then ADDING_B_U else v.
(** src/xrtm_interface.c:5194-5294 *)
Definition build_up (d : lin) (layers sources : table) (a : table) : table :=
  let n := l_layers d in
  loop (l_derivs d) (fun j a =>
    let l i := tr (layers i j) in let s i := tr (sources i j) in
    let a := upd2 a n j (up_first (l n) (s n)) in
    fst (loop_down n (fun i '(a, (flag, flag2)) =>
      (upd2 a i j (up_code flag flag2 (l i) (s i)), (if l i then true else flag, if s i then true else flag2)))
      (a, (if l n then true else false, if s n then true else false)))) a.

(** src/xrtm_interface.c:5298-5340 *)
Definition build_stacks (d : lin) (layers : table) (a : table) : table :=
  loop (l_derivs d) (fun j a =>
    let l i := tr (layers i j) in
    let a := upd2 a 0 j ADDING_U_U in
    let a := if l 0%nat then upd2 a 0 j ADDING_U_S else a in
    fst (loop (l_layers d) (fun k '(a, flag) =>
      let i := S k in
      ((if negb (l k) && negb flag then upd2 a i j ADDING_U_U
        else if l k && negb flag then upd2 a i j ADDING_U_S
        else if negb (l k) && flag then upd2 a i j ADDING_S_S
        else if l k && flag then upd2 a i j ADDING_S_S
        else a), if l i then true else flag))
      (a, if l 0%nat then true else false))) a.

(* ------------------------------------------------------------------------- *)
(** * Unions and merging                                                      *)

(** src/xrtm_utility.c:309-321 *)
Definition union_bitwise_or (f : row) (n : nat) : Z := loop n (fun i v => Z.lor v (f i)) ADDING_U_U.
(** src/xrtm_utility.c:325-331; [ms]: the summaries of the rows *)
Definition union_logical_or2 (m n : nat) (ms : nat -> meta) (b : row) : row :=
  loop m (fun i b => upd1 b i (flags_or (ms i) n)) b.
(** src/xrtm_utility.c:335-341 *)
Definition union_bitwise_or2 (m n : nat) (f : table) (b : row) : row :=
  loop m (fun i b => upd1 b i (union_bitwise_or (f i) n)) b.

(** src/xrtm_utility.c:282-305 *)
Definition derivs_merge_s (n : nat) (s1 sm : row) (s : row) : row :=
  loop n (fun i s =>
    if negb (tr (s1 i)) && negb (tr (sm i)) then upd1 s i ADDING_U_U
    else if negb (tr (s1 i)) && tr (sm i) then upd1 s i ADDING_U_S
    else if tr (s1 i) && tr (sm i) then upd1 s i ADDING_S_S
    else s) s.

(* ------------------------------------------------------------------------- *)
(** * xrtm_update_varied_layers                                               *)

(** The arrays of derivs_data (src/xrtm.h) the builders fill. *)
Record derivs := {
  v_layers : table; v_stacks : table; v_beam : table; v_thermal : table; v_sources : table;
  v_total : table; v_down : table; v_up : table }.
(** src/xrtm_interface.c:5374-5388 ([flag] = 1) and 5394-5408 ([flag] = 0) *)
Definition build_set (d : lin) (flag : bool) (o : derivs) : derivs :=
  let layers := build_layers d flag (v_layers o) in
  let stacks := build_stacks d layers (v_stacks o) in
  let beam := if l_solar d then build_beam d layers (v_beam o) else v_beam o in
  let thermal := if l_thermal d then build_thermal d layers (v_thermal o) else v_thermal o in
  let sources := build_sources d beam thermal (v_sources o) in
  let total := build_total d layers sources (v_total o) in
  {| v_layers := layers; v_stacks := stacks; v_beam := beam; v_thermal := thermal; v_sources := sources;
     v_total := total; v_down := build_down d layers sources (v_down o);
     v_up := build_up d layers sources (v_up o) |}.

(** The union rows for reverse mode. *)
Record unions := {
  u_layers : row; u_stacks : row; u_sources : row; u_beam : row; u_thermal : row; u_up : row; u_down : row;
  um_layers : row; um_stacks : row; um_sources : row; um_beam : row; um_thermal : row; um_up : row; um_down : row }.
(** src/xrtm_interface.c:5414-5448.  The unions of the second set are taken from the first
    (5434-5444), except for the adding codes, and 5441 stores into the first beam union. *)
Definition build_unions (d : lin) (v vm : derivs) (u : unions) : unions :=
  if negb (l_reverse d) then u else
  let m := (l_layers d + 1)%nat in let n := l_derivs d in
  let lor f b := union_logical_or2 m n (fst (fill_meta2 f m n)) b in
  {| u_layers := lor (v_layers v) (u_layers u); u_stacks := lor (v_stacks v) (u_stacks u);
     u_sources := lor (v_sources v) (u_sources u);
     u_beam := if l_solar d then lor (v_beam v) (lor (v_beam v) (u_beam u)) else u_beam u;
     u_thermal := if l_thermal d then lor (v_thermal v) (u_thermal u) else u_thermal u;
     u_up := union_bitwise_or2 m n (v_up v) (u_up u); u_down := union_bitwise_or2 m n (v_down v) (u_down u);
     um_layers := lor (v_layers v) (um_layers u); um_stacks := lor (v_stacks v) (um_stacks u);
     um_sources := lor (v_sources v) (um_sources u);
     um_beam := um_beam u;
     um_thermal := if l_thermal d then lor (v_thermal v) (um_thermal u) else um_thermal u;
     um_up := union_bitwise_or2 m n (v_up vm) (um_up u); um_down := union_bitwise_or2 m n (v_down vm) (um_down u) |}.
