(** The reverse-mode loop of xrtm_solution_2, src/xrtm_interface.c:5840-5989.  The forward
    run and the handle bookkeeping around it (5811-5863) are in HandleModel (solution_2).
    The reverse pass get_solution_internal_a (src/xrtm_model_a.c:3316-3486) is an input of the
    model: it maps the seeds to adjoints of the inputs.  It clears the seeds before it returns
    success (3481-3482, and 2100-2101 for the single scattering solver); its failure is not
    looked at by the caller (5954) and leaves the seeds as they are.  Numbers are of any type. *)
From Coq Require Import List Bool Arith.
From Verif Require Import DerivsModel.
Import ListNotations.
Open Scope nat_scope.

(** Dimensions and options read by the loop; n_mus2 is n_quad or n_umus (5840-5843). *)
Record s2cfg := {
  s_levels : nat; s_mus : nat; s_phis : nat; s_stokes : nat; s_up : bool; s_down : bool;
  s_derivs : nat; s_kernels : nat; s_layers : nat; s_elem : nat; s_ncoef : nat -> nat }.
(** An output: false is upwelling (input 0), true downwelling (input 1); then the indices
    ii_input, jj_input, kk_input, ll_input. *)
Definition out := (bool * (nat * nat * nat * nat))%type.

Section Dims.
Variable g : s2cfg.
(** 5894-5910: number of directions and the array input[2]; neither option leaves both unset. *)
Definition directions : list bool :=
  if s_up g && s_down g then [false; true] else if s_up g then [false] else if s_down g then [true] else [].
Definition n_inputs : nat := length directions * s_levels g * s_mus g * s_phis g * s_stokes g.
(** 5913-5930; None is a read of an input[] that was not set *)
Definition decode4 (ii : nat) : nat * nat * nat * nat :=
  let mps := s_mus g * s_phis g * s_stokes g in let ps := s_phis g * s_stokes g in
  (ii / mps, ii mod mps / ps, ii mod mps mod ps / s_stokes g, ii mod mps mod ps mod s_stokes g).
Definition decode (i : nat) : option out :=
  let n := s_levels g * s_mus g * s_phis g * s_stokes g in
  if i <? n then option_map (fun d => (d, decode4 i)) (nth_error directions 0)
  else option_map (fun d => (d, decode4 (i - n))) (nth_error directions 1).
End Dims.

Section Loop.
Variables (T : Type) (zero one : T) (add mul : T -> T -> T).
(** Adjoints left by the reverse pass: kernel_ampfac_a, ltau0_a, omega0_a, coef0_a. *)
Record adj := { a_kamp : nat -> T; a_ltau : nat -> T; a_omega : nat -> T; a_coef : nat -> nat -> nat -> T }.
(** The user's linearised inputs and the flags derivs.layers[layer][derivative]. *)
Record lin := { l_kamp : nat -> nat -> T; l_ltau : nat -> nat -> T; l_omega : nat -> nat -> T;
  l_coef : nat -> nat -> nat -> nat -> T; l_varies : nat -> nat -> bool }.
Definition seeds := out -> T.
Definition out_eqb (x y : out) : bool :=
  let '(d, (a, b, c, e)) := x in let '(d', (a', b', c', e')) := y in
  Bool.eqb d d' && (a =? a') && (b =? b') && (c =? c') && (e =? e').
Definition arrays := out -> nat -> T.   (* I_p_l, I_m_l [output][derivative] *)

Variables (g : s2cfg) (lin_ : lin) (reverse : seeds -> option adj).

(** 5962-5986: the value left in a[...][k][...] *)
Definition contract (x : adj) (k : nat) : T :=
  let s := loop (s_kernels g) (fun j s => add s (mul (l_kamp lin_ j k) (a_kamp x j))) zero in
  loop (s_layers g) (fun j s =>
    let s := add s (mul (l_ltau lin_ j k) (a_ltau x j)) in
    if l_varies lin_ j k then
      let s := add s (mul (l_omega lin_ j k) (a_omega x j)) in
      loop (s_elem g) (fun l s => loop (s_ncoef g j) (fun m s => add s (mul (l_coef lin_ j k l m) (a_coef x j l m))) s) s
    else s) s.
(** Inside the arrays cleared by init_array4_d, init_array5_d. *)
Definition inside (o : out) : bool :=
  let '(_, (a, b, c, e)) := o in (a <? s_levels g) && (b <? s_mus g) && (c <? s_phis g) && (e <? s_stokes g).
(** One pass of the loop, 5932-5988.  When the reverse pass fails the adjoints are those of an
    earlier moment; [x0] stands for them. *)
Definition visit (x0 : adj) (o : out) (st : seeds * arrays) : seeds * arrays :=
  let '(s, a) := st in
  let s := fun p => if out_eqb p o then one else s p in
  let '(x, s) := match reverse s with
                 | Some x => (x, fun p => if inside p then zero else s p)
                 | None => (x0, s)
                 end in
  (s, fun p k => if out_eqb p o && (k <? s_derivs g) then contract x k else a p k).
Definition reverse_loop (x0 : adj) (a : arrays) : option (seeds * arrays) :=
  match directions g with [] => None | _ =>   (* n_dirs not set *)
  loop (n_inputs g) (fun i st => match st, decode g i with
                                 | Some st, Some o => Some (visit x0 o st)
                                 | _, _ => None
                                 end)
    (Some (fun _ => zero, fun p k => if inside p && (k <? s_derivs g) then zero else a p k)) end.
End Loop.
