(** The work memory of a handle, src/xrtm_work.c: arrays taken from pages (get_work_common) and from lists of
    arrays of fixed shape (work_get1, work_get2, work_get3), and the discipline of the solvers, which pass the
    position [work_data] by value: what a called function took is given back when it returns.

    Simplified: malloc and realloc do not fail and give blocks that are not in use; sizes do not overflow size_t;
    flags_count is the number of flags set (src/xrtm_utility.c 188-246).  The arrays of pointers lists and lists_v
    are their contents and their capacity (max_list). *)
From Coq Require Import List Bool ZArith Lia.
From Verif Require Import Base.
Import ListNotations.
Open Scope Z_scope.

(** xrtm_work.h 98-129 *)
Inductive wtype := IX | IX2 | DQQ | DX | DX2 | DXX | DXX2 | DD | DS | DU | DUX | DDERIVS | DLAYERS | DBOTH | ZX | ZXX | ZU | ZUX.
Definition wtypes : list wtype := [IX; IX2; DQQ; DX; DX2; DXX; DXX2; DD; DS; DU; DUX; DDERIVS; DLAYERS; DBOTH; ZX; ZXX; ZU; ZUX].
(** xrtm_work.h 131-137 *)
Inductive vtype := DERIVS_V | LAYERS_V | BOTH_V.
Definition vtypes : list vtype := [DERIVS_V; LAYERS_V; BOTH_V].
Definition wtype_eqb (a b : wtype) : bool :=
  match a, b with
  | IX, IX | IX2, IX2 | DQQ, DQQ | DX, DX | DX2, DX2 | DXX, DXX | DXX2, DXX2 | DD, DD | DS, DS | DU, DU | DUX, DUX
  | DDERIVS, DDERIVS | DLAYERS, DLAYERS | DBOTH, DBOTH | ZX, ZX | ZXX, ZXX | ZU, ZU | ZUX, ZUX => true
  | _, _ => false
  end.
Definition vtype_eqb (a b : vtype) : bool :=
  match a, b with DERIVS_V, DERIVS_V | LAYERS_V, LAYERS_V | BOTH_V, BOTH_V => true | _, _ => false end.

(** work_shared, the sizes; work_init 47-59 *)
Record dims := { n_quad_v : Z; n_quad_v_x : Z; n_stokes : Z; n_derivs : Z; n_layers : Z; n_umus_v : Z }.
Definition min_page (d : dims) : Z := (if 0 <? n_derivs d then n_derivs d else 1) * n_quad_v d * n_quad_v d * 8.
(** array_mem_length, misc/gutil_alloc.c 19-34: one level of row pointers for rank 2 *)
Definition mem1 (m size : Z) : Z := m * size.
Definition mem2 (m n size : Z) : Z := m * 8 + m * n * size.
(** The shapes in work_get1, 995-1031 *)
Definition asize (d : dims) (t : wtype) : Z :=
  match t with
  | IX => mem1 (n_quad_v_x d) 4 | IX2 => mem1 (2 * n_quad_v_x d) 4
  | DQQ => mem2 (n_quad_v d) (n_quad_v d) 8
  | DX => mem1 (n_quad_v_x d) 8 | DX2 => mem1 (2 * n_quad_v_x d) 8
  | DXX => mem2 (n_quad_v_x d) (n_quad_v_x d) 8 | DXX2 => mem2 (2 * n_quad_v_x d) (2 * n_quad_v_x d) 8
  | DD => mem1 (n_quad_v d + n_umus_v d) 8 | DS => mem1 (n_stokes d) 8 | DU => mem1 (n_umus_v d) 8
  | DUX => mem2 (n_umus_v d) (n_quad_v_x d) 8 | DDERIVS => mem1 (n_derivs d) 8 | DLAYERS => mem1 (n_layers d) 8
  | DBOTH => mem2 (n_layers d) (n_derivs d) 8
  | ZX => mem1 (n_quad_v_x d) 16 | ZXX => mem2 (n_quad_v_x d) (n_quad_v_x d) 16
  | ZU => mem1 (n_umus_v d) 16 | ZUX => mem2 (n_umus_v d) (n_quad_v_x d) 16
  end.
(** The arrays of pointers: alloc_array1 (663, 855), alloc_array2 (726, 917) *)
Definition vsize (d : dims) (v : vtype) : Z :=
  match v with DERIVS_V => mem1 (n_derivs d) 8 | LAYERS_V => mem1 (n_layers d) 8 | BOTH_V => mem2 (n_layers d) (n_derivs d) 8 end.

(** Memory: the blocks in use with their sizes, and the next block malloc gives. *)
Record heap := { inuse : list (nat * Z); next : nat }.
Definition malloc (n : Z) (h : heap) : heap * nat := ({| inuse := (next h, n) :: inuse h; next := S (next h) |}, next h).
Definition has (h : heap) (b : nat) : bool := existsb (fun e => Nat.eqb (fst e) b) (inuse h).
(** free(NULL) does nothing; a block that is not in use is undefined behaviour. *)
Definition free (b : option nat) (h : heap) : outcome heap :=
  match b with
  | None => Ok h
  | Some b => if has h b then Ok {| inuse := filter (fun e => negb (Nat.eqb (fst e) b)) (inuse h); next := next h |} else UB
  end.

(** A page: n_bytes and pages; a list: its entries and its capacity. *)
Record page := { pbytes : Z; pblock : option nat }.
Record wlist := { entries : list nat; cap : Z }.
(** work_shared *)
Record shared := { hp : heap; pages : Z -> page; lists : wtype -> wlist; listsv : vtype -> wlist }.
(** work_data *)
Record pos := { ipage : Z; ibyte : Z; ilist : wtype -> nat; ilistv : vtype -> nat }.
(** An array handed out: block, first byte, number of bytes. *)
Record region := { rblock : option nat; roff : Z; rlen : Z }.

Definition set_page (w : shared) (h : heap) (i : Z) (p : page) : shared :=
  {| hp := h; pages := fun j => if i =? j then p else pages w j; lists := lists w; listsv := listsv w |}.
Definition move (p : pos) (i b : Z) : pos := {| ipage := i; ibyte := b; ilist := ilist p; ilistv := ilistv p |}.

Definition WORK_MAX_PAGES : Z := 1024.
Definition WORK_LIST_INC : Z := 1024.
(** xrtm_work.h 18; the test of line 159 is on the number 16 itself. *)
Definition WORK_ALIGNMENT : Z := 16.
Definition round (l : Z) : Z := if negb (l mod 16 =? 0) then l / WORK_ALIGNMENT * WORK_ALIGNMENT + WORK_ALIGNMENT else l.

(** free the page, allocate a new one: 172-175, 193-197 *)
Definition renew (d : dims) (w : shared) (i len : Z) : outcome shared :=
  match free (pblock (pages w i)) (hp w) with
  | Ok h => let n := Z.max (min_page d) len in let (h, b) := malloc n h in Ok (set_page w h i {| pbytes := n; pblock := Some b |})
  | Err e => Err e
  | UB => UB
  end.
(** get_work_common, 155-208 *)
Definition get_common (d : dims) (w : shared) (p : pos) (length : Z) : outcome (shared * pos * Z) :=
  let len := round length in
  let n := pbytes (pages w (ipage p)) in
  if (ibyte p =? 0) && (n =? 0) then
    let n := Z.max (min_page d) len in
    let (h, b) := malloc n (hp w) in
    Ok (set_page w h (ipage p) {| pbytes := n; pblock := Some b |}, move p (ipage p) len, 0)
  else if (ibyte p =? 0) && (n <? len) then
    match renew d w (ipage p) len with Ok w => Ok (w, move p (ipage p) len, 0) | Err e => Err e | UB => UB end
  else if n <? ibyte p + len then
    let i := ipage p + 1 in
    if WORK_MAX_PAGES <=? i then Err (-1)
    else if pbytes (pages w i) <? len then
      match renew d w i len with Ok w => Ok (w, move p i len, 0) | Err e => Err e | UB => UB end
    else Ok (w, move p i len, 0)
  else Ok (w, move p (ipage p) (ibyte p + len), ibyte p).
(** get_work_x1 214-223, get_work_x2 259-268 and the like; the functions with flags make several requests, 297-319: the array is at pages[i_page] + i_byte *)
Definition get_page (d : dims) (w : shared) (p : pos) (length : Z) : outcome (shared * pos * list region) :=
  match get_common d w p length with
  | Ok (w, p, i) => Ok (w, p, [{| rblock := pblock (pages w (ipage p)); roff := i; rlen := length |}])
  | Err e => Err e
  | UB => UB
  end.

(** check_work_bounds, 587-593 *)
Definition check_bounds (i : nat) (l : wlist) : wlist :=
  let k := Z.of_nat i in
  if cap l <=? k then {| entries := entries l; cap := cap l + ((k - cap l + 1) / WORK_LIST_INC + 1) * WORK_LIST_INC |} else l.
(** data[i] = b; n++: the entry has to be the next one and within the capacity. *)
Definition write (i b : nat) (l : wlist) : outcome wlist :=
  if Nat.eqb i (length (entries l)) && (Z.of_nat i <? cap l) then Ok {| entries := entries l ++ [b]; cap := cap l |} else UB.
(** get_work_vector 638-649, get_work_matrix 830-841: a new entry *)
Definition new_entry (size : Z) (i : nat) (h : heap) (l : wlist) : outcome (heap * wlist) :=
  let l := check_bounds (length (entries l)) l in
  let (h, b) := malloc size h in
  match write i b l with Ok l => Ok (h, l) | Err e => Err e | UB => UB end.
(** data[i], which has to be there *)
Definition entry (i : nat) (l : wlist) : outcome nat := match nth_error (entries l) i with Some b => Ok b | None => UB end.
Definition whole (b : nat) (n : Z) : region := {| rblock := Some b; roff := 0; rlen := n |}.

Definition set_list (w : shared) (h : heap) (t : wtype) (l : wlist) : shared :=
  {| hp := h; pages := pages w; lists := fun t' => if wtype_eqb t t' then l else lists w t'; listsv := listsv w |}.
Definition set_listv (w : shared) (h : heap) (v : vtype) (l : wlist) : shared :=
  {| hp := h; pages := pages w; lists := lists w; listsv := fun v' => if vtype_eqb v v' then l else listsv w v' |}.
Definition adv (p : pos) (t : wtype) (n : nat) : pos :=
  {| ipage := ipage p; ibyte := ibyte p; ilist := fun t' => if wtype_eqb t t' then (ilist p t' + n)%nat else ilist p t'; ilistv := ilistv p |}.
Definition advv (p : pos) (v : vtype) : pos :=
  {| ipage := ipage p; ibyte := ibyte p; ilist := ilist p; ilistv := fun v' => if vtype_eqb v v' then S (ilistv p v') else ilistv p v' |}.

(** GET_WORK1_VECTOR 618-624, GET_WORK1_MATRIX 810-816; work_get1 989-1041, the variant with LEGACY defined (984) *)
Definition get1 (d : dims) (w : shared) (p : pos) (t : wtype) : outcome (shared * pos * list region) :=
  let i := ilist p t in
  match (if Nat.leb (length (entries (lists w t))) i
         then match new_entry (asize d t) i (hp w) (lists w t) with Ok (h, l) => Ok (set_list w h t l) | Err e => Err e | UB => UB end
         else Ok w) with
  | Ok w => match entry i (lists w t) with Ok b => Ok (w, adv p t 1, [whole b (asize d t)]) | Err e => Err e | UB => UB end
  | Err e => Err e
  | UB => UB
  end.

(** The loops 677-683, 744-750, 868-874 and 935-941: new arrays from entry n2 on, [k] of them. *)
Fixpoint fill (size : Z) (k : nat) (h : heap) (l : wlist) : outcome (heap * wlist) :=
  match k with
  | O => Ok (h, l)
  | S k => let (h, b) := malloc size h in
           match write (length (entries l)) b l with Ok l => fill size k h l | Err e => Err e | UB => UB end
  end.
(** data2[iq2++] [k] times *)
Fixpoint take (size : Z) (k i : nat) (l : wlist) : outcome (list region) :=
  match k with
  | O => Ok []
  | S k => match entry i l with
           | Ok b => match take size k (S i) l with Ok rs => Ok (whole b size :: rs) | Err e => Err e | UB => UB end
           | Err e => Err e
           | UB => UB
           end
  end.
(** get_work_vectors 653-712, get_work_vectors2 716-785, get_work_matrices 845-903 and get_work_matrices2 907-976 for
    [count] flags set; the array of pointers and the arrays. *)
Definition getv (d : dims) (w : shared) (p : pos) (v : vtype) (t : wtype) (count : nat) : outcome (shared * pos * list region) :=
  let iq := ilistv p v in
  match (if Nat.leb (length (entries (listsv w v))) iq
         then match new_entry (vsize d v) iq (hp w) (listsv w v) with Ok (h, l) => Ok (set_listv w h v l) | Err e => Err e | UB => UB end
         else Ok w) with
  | Ok w =>
      let i2 := ilist p t in
      let l2 := lists w t in
      let n2 := length (entries l2) in
      match (if Z.of_nat n2 <=? Z.of_nat i2 + Z.of_nat count - 1
             then match fill (asize d t) (i2 + count - n2) (hp w) (check_bounds (i2 + count - 1) l2) with
                  | Ok (h, l) => Ok (set_list w h t l) | Err e => Err e | UB => UB end
             else Ok w) with
      | Ok w =>
          match entry iq (listsv w v), take (asize d t) count i2 (lists w t) with
          | Ok b, Ok rs => Ok (w, advv (adv p t count) v, whole b (vsize d v) :: rs)
          | _, _ => UB
          end
      | Err e => Err e
      | UB => UB
      end
  | Err e => Err e
  | UB => UB
  end.

(** work_init, 23-74 *)
Definition init_shared : shared :=
  {| hp := {| inuse := []; next := 0 |}; pages := fun _ => {| pbytes := 0; pblock := None |};
     lists := fun _ => {| entries := []; cap := 0 |}; listsv := fun _ => {| entries := []; cap := 0 |} |}.
Definition init_pos : pos := {| ipage := 0; ibyte := 0; ilist := fun _ => O; ilistv := fun _ => O |}.

(** What a computation does: take an array, call a function (which gets a copy of the position), return from it. *)
Inductive wop := Page (length : Z) | One (t : wtype) | Many (v : vtype) (t : wtype) (count : nat) | Call | Return.
(** A function's position and the arrays it can see: its own and its callers'. *)
Record frame := { fpos : pos; fregs : list region }.
Record wstate := { sh : shared; top : frame; callers : list frame }.
Definition start : wstate := {| sh := init_shared; top := {| fpos := init_pos; fregs := [] |}; callers := [] |}.
Definition given (s : wstate) (r : outcome (shared * pos * list region)) : outcome wstate :=
  match r with
  | Ok (w, p, rs) => Ok {| sh := w; top := {| fpos := p; fregs := rs ++ fregs (top s) |}; callers := callers s |}
  | Err e => Err e
  | UB => UB
  end.
Definition wstep (d : dims) (c : wop) (s : wstate) : outcome wstate :=
  match c with
  | Page n => given s (get_page d (sh s) (fpos (top s)) n)
  | One t => given s (get1 d (sh s) (fpos (top s)) t)
  | Many v t k => given s (getv d (sh s) (fpos (top s)) v t k)
  | Call => Ok {| sh := sh s; top := top s; callers := top s :: callers s |}
  | Return => match callers s with f :: fs => Ok {| sh := sh s; top := f; callers := fs |} | [] => Ok s end
  end.
Fixpoint wsteps (d : dims) (cs : list wop) (s : wstate) : outcome wstate :=
  match cs with
  | [] => Ok s
  | c :: cs => match wstep d c s with Ok s => wsteps d cs s | Err e => Err e | UB => UB end
  end.

(** work_free, 105-148: the pages, the lists named there, the lists of arrays of pointers. *)
Fixpoint free_all (bs : list (option nat)) (h : heap) : outcome heap :=
  match bs with
  | [] => Ok h
  | b :: bs => match free b h with Ok h => free_all bs h | Err e => Err e | UB => UB end
  end.
Definition freed_types : list wtype := [IX; IX2; DX; DX2; DXX; DXX2; DU; DUX; DD; DS; DDERIVS; DLAYERS; DBOTH; ZX; ZXX; ZU; ZUX].
Definition page_range : list Z := map Z.of_nat (seq 0 (Z.to_nat WORK_MAX_PAGES)).
Definition owned_pages (w : shared) : list (option nat) :=
  flat_map (fun i => if 0 <? pbytes (pages w i) then [pblock (pages w i)] else []) page_range.
Definition owned_lists (ts : list wtype) (w : shared) : list (option nat) := flat_map (fun t => map Some (entries (lists w t))) ts.
Definition owned_listsv (w : shared) : list (option nat) := flat_map (fun v => map Some (entries (listsv w v))) vtypes.
Definition work_free (w : shared) : outcome heap := free_all (owned_pages w ++ owned_lists freed_types w ++ owned_listsv w) (hp w).
