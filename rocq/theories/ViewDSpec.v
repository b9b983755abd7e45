(** What the derivatives of the two-stream solver at directions other than its streams are derivatives of *)
From Coq Require Import Reals Bool Arith.
From Verif Require Import DeltaMSpec AddingModel AddingSpec TwoSpec TwoDSpec.
Open Scope R_scope.

(** The surface's reflection into the direction [j] has these derivatives along the path. *)
Definition mirrors (m : nat) (fl : varied) (G : R -> ground) (p : R) (RU RU0 : R -> vec) (ru_l ru0_l : vec) (j : nat) : Prop := G p <> None ->
  derivable_pt_lim (fun s => RU s j) p (when (v_layer fl (S m)) (ru_l j)) /\ derivable_pt_lim (fun s => RU0 s j) p (when (v_layer fl (S m)) (ru0_l j)).
(** In layers that do not depend on the parameter the beam does not change its slant, and is absorbed as before, as in a plane-parallel atmosphere. *)
Definition steady (m : nat) (fl : varied) (dl : deck_l) : Prop := forall k, (k <= m)%nat -> v_layer fl k = false -> v_beam fl k = true -> l_as0 dl k = 0 /\ l_atran dl k = 0.
(** What the code overlooks otherwise, in the layer [k] and in a direction of cosine [u]: the change of the share in which sunlight, scattered
    with the given strength, reaches the top of the layer, or the bottom. *)
Definition overlooked_up (d : deck) (dl : deck_l) (u strength : R) (k : nat) : R :=
  strength * ((- l_atran dl k * exp (- t_ltau d k / u) - (1 - t_atran d k * exp (- t_ltau d k / u)) / (1 + u * t_as0 d k) * (u * l_as0 dl k)) / (1 + u * t_as0 d k)).
Definition overlooked_down (d : deck) (dl : deck_l) (u strength : R) (k : nat) : R :=
  strength * ((- l_as0 dl k * t_ltau d k * exp (- t_as0 d k * t_ltau d k) + (exp (- t_as0 d k * t_ltau d k) - exp (- t_ltau d k / u)) / (1 - u * t_as0 d k) * (u * l_as0 dl k)) / (1 - u * t_as0 d k)).
(** It is overlooked in layers that are not marked, but whose beam is. *)
Definition bent (fl : varied) (k : nat) : bool := negb (v_layer fl k) && v_beam fl k.
(** What all the layers between the output and the boundary contribute: [c] layers from the one below the level [l] on, or those above the level. *)
Fixpoint lost_up (d : deck) (dl : deck_l) (fl : varied) (u : R) (strength : vec) (c l : nat) : R :=
  match c with O => 0 | S c => lost_up d dl fl u strength c (S l) * exp (- t_ltau d l / u) + when (bent fl l) (overlooked_up d dl u (strength l) l) end.
Fixpoint lost_down (d : deck) (dl : deck_l) (fl : varied) (u : R) (strength : vec) (l : nat) : R :=
  match l with O => 0 | S k => lost_down d dl fl u strength k * exp (- t_ltau d k / u) + when (bent fl k) (overlooked_down d dl u (strength k) k) end.
