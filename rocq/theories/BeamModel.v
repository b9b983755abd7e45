(** Attenuation of the solar beam: beam_params_update, src/xrtm_model.c:406-470, its adjoint
    beam_params_update_a, src/xrtm_model_a.c:204-292, and chapman_functions,
    src/xrtm_utility.c:891-919.  Over the reals: rounding is not modelled.  The loop over the
    levels is the one of a full refresh (no level kept from before); which levels are kept is in
    CacheModel. *)
From Coq Require Import Reals Bool Arith.
From Verif Require Import DerivsModel DeltaMModel.
Open Scope R_scope.

(** XRTM_OPTION_PSA, mu_0 and the factors d->chapman *)
Record geo := { q_psa : bool; q_mu0 : R; q_chap : nat -> nat -> R }.
(** Values per level (btau, btran) and per layer (as_0, atran); derivatives [..][j]. *)
Record beam := { btau : nat -> R; btran : nat -> R; as_0 : nat -> R; atran : nat -> R;
  btau_l : nat -> nat -> R; btran_l : nat -> nat -> R; as_0_l : nat -> nat -> R; atran_l : nat -> nat -> R }.

(** xrtm_model.c:429-435, 447-456: btau[i] and btau_l[i][j] for i = k + 1 *)
Definition next_depth (q : geo) (ltau : nat -> R) (prev : R) (k : nat) : R :=
  if negb (q_psa q) then prev + ltau k / q_mu0 q
  else loop (S k) (fun j s => s + ltau j * q_chap q k j) 0.
(** 447-465, one derivative of level k + 1 *)
Definition level_l (q : geo) (ltau : nat -> R) (ltau_l : nat -> nat -> R) (k : nat) (j : nat) (b : beam) : beam :=
  let bl := set2 (btau_l b) (S k) j (next_depth q (fun m => ltau_l m j) (btau_l b k j) k) in
  let tl := set2 (btran_l b) (S k) j (- bl (S k) j * btran b (S k)) in
  let al := set2 (as_0_l b) k j ((bl (S k) j - bl k j - as_0 b k * ltau_l k j) / ltau k) in
  let rl := set2 (atran_l b) k j (- (ltau_l k j * as_0 b k + ltau k * al k j) * atran b k) in
  {| btau := btau b; btran := btran b; as_0 := as_0 b; atran := atran b;
     btau_l := bl; btran_l := tl; as_0_l := al; atran_l := rl |}.
(** 424-466, the body for level i = k + 1; [nd] is n_derivs when CALC_DERIVS is on and 0 otherwise *)
Definition level (q : geo) (nd : nat) (ltau : nat -> R) (ltau_l : nat -> nat -> R) (k : nat) (b : beam) : beam :=
  let bt := set1 (btau b) (S k) (next_depth q ltau (btau b k) k) in
  let tr := set1 (btran b) (S k) (exp (- bt (S k))) in
  let a := set1 (as_0 b) k ((bt (S k) - bt k) / ltau k) in
  let at_ := set1 (atran b) k (exp (- ltau k * a k)) in
  loop nd (level_l q ltau ltau_l k)
    {| btau := bt; btran := tr; as_0 := a; atran := at_;
       btau_l := btau_l b; btran_l := btran_l b; as_0_l := as_0_l b; atran_l := atran_l b |}.
(** xrtm_interface.c:1832-1841 *)
Definition top (nd : nat) (b : beam) : beam :=
  {| btau := set1 (btau b) 0 0; btran := set1 (btran b) 0 1; as_0 := as_0 b; atran := atran b;
     btau_l := loop nd (fun j x => set2 x 0 j 0) (btau_l b); btran_l := loop nd (fun j x => set2 x 0 j 0) (btran_l b);
     as_0_l := as_0_l b; atran_l := atran_l b |}.
(** 424-466 from the first level to level [n] on a handle as created *)
Definition beam_params (q : geo) (nd n : nat) (ltau : nat -> R) (ltau_l : nat -> nat -> R) (b : beam) : beam :=
  loop n (level q nd ltau ltau_l) (top nd b).
(** 416-419: the last level refreshed when level [i_level] is asked for *)
Definition last_level (n_layers i_level : nat) : nat := if (i_level =? n_layers)%nat then i_level else S i_level.

(* ------------------------------------------------------------------------- *)
(** Adjoints *)
Record beam_a := { ltau_a : nat -> R; btau_a : nat -> R; btran_a : nat -> R; as_0_a : nat -> R; atran_a : nat -> R }.
(** xrtm_model_a.c:264-289, the body for i = k + 1.  [add1 x i v] is x[i] += v. *)
Definition add1 (x : nat -> R) (i : nat) (v : R) : nat -> R := set1 x i (x i + v).
Definition level_a (q : geo) (ltau : nat -> R) (b : beam) (k : nat) (s : beam_a) : beam_a :=
  let t := - atran_a s k * atran b k in
  let la := add1 (ltau_a s) k (t * as_0 b k) in
  let sa := add1 (as_0_a s) k (t * ltau k) in
  let t := sa k / ltau k in
  let ba := add1 (btau_a s) (S k) t in
  let ba := add1 ba k (- t) in
  let la := add1 la k (- t * as_0 b k) in
  let ba := add1 ba (S k) (- btran_a s (S k) * btran b (S k)) in
  if negb (q_psa q) then
    let ba := add1 ba k (ba (S k)) in
    {| ltau_a := add1 la k (ba (S k) / q_mu0 q); btau_a := ba; btran_a := btran_a s; as_0_a := sa; atran_a := atran_a s |}
  else
    {| ltau_a := loop_down (S k) (fun j la => add1 la j (ba (S k) * q_chap q k j)) la;
       btau_a := ba; btran_a := btran_a s; as_0_a := sa; atran_a := atran_a s |}.
(** 204-224: levels 0 to n and layers 0 to m cleared *)
Definition clear_a (n m : nat) (s : beam_a) : beam_a :=
  {| ltau_a := ltau_a s;
     btau_a := loop (S n) (fun i x => set1 x i 0) (btau_a s); btran_a := loop (S n) (fun i x => set1 x i 0) (btran_a s);
     as_0_a := loop (S m) (fun i x => set1 x i 0) (as_0_a s); atran_a := loop (S m) (fun i x => set1 x i 0) (atran_a s) |}.
(** 228-233, 245-292 for level [i_level] of [n_layers] *)
Definition beam_params_a (q : geo) (n_layers i_level : nat) (ltau : nat -> R) (b : beam) (s : beam_a) : beam_a :=
  let n := last_level n_layers i_level in
  let s := loop_down n (level_a q ltau b) s in
  clear_a n (if (i_level <? n_layers)%nat then i_level else n_layers - 1)%nat s.

(* ------------------------------------------------------------------------- *)
(** xrtm_utility.c:891-919.  [None] is a read of chap[i][-1]. *)
Definition chapman_entry (z0 : R) (z : nat -> R) (b : R) (i j : nat) (chap : nat -> nat -> R) : option (nat -> nat -> R) :=
  let r1 := z0 + z j in let r2 := z0 + z (S j) in
  if Req_EM_T r1 r2 then match j with O => None | S j' => Some (set2 chap i j (chap i j')) end
  else Some (set2 chap i j ((sqrt (r1 * r1 - b) - sqrt (r2 * r2 - b)) / (r1 - r2))).
Definition chapman_functions (n_layers : nat) (mu_0 z0 : R) (z : nat -> R) (chap : nat -> nat -> R) : option (nat -> nat -> R) :=
  let a := sin (acos mu_0) in
  let a := a * a in
  loop n_layers (fun i s =>
    let b := z0 + z (S i) in
    let b := b * b * a in
    loop (S i) (fun j s => match s with Some c => chapman_entry z0 z b i j c | None => None end) s) (Some chap).
