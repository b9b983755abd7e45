(** What the two-stream solver is asked for at directions other than its streams: the light of the same atmosphere with these directions added as
    streams of weight zero, as the general solvers have them.  No reference to how the solver computes anything. *)
From Coq Require Import Reals Bool Arith.
From Verif Require Import DeltaMSpec AddingModel AddingSpec EigModel EigSpec AtmSpec ScatModel TwoSpec.
Open Scope R_scope.

(** The stream and, from number 1 on, the directions of output [umu] *)
Definition angle (d : deck) (umu : vec) : vec := fun i => match i with O => t_qx d | S j => umu j end.
Definition counts : vec := fun i => match i with O => 1 | S _ => 0 end.
(** Light scattered once is left to others if [once] is false. *)
Definition directly (once : bool) (v : vec) : vec := fun i => match i with O => v 0%nat | S _ => if once then v i else 0 end.
(** One layer: [Y i] and [Y0] are the functions of the order at the stream or direction i and at the beam, two each. *)
Definition extended (d : deck) (umu : vec) (once : bool) (Y : nat -> array) (Y0 : array) (k : nat) : slab :=
  let mats := build_phase_mats (t_four d) 2 Y Y (t_coef d k) in
  let vecs := phase_vecs_get (t_four d) 2 Y Y0 (t_coef d k) in
  {| qx := angle d umu; qw := counts; zeroth := (t_four d =? 0)%nat; flux0 := t_F0 d;
     omega := t_omega d k; ltau := t_ltau d k; as_0 := t_as0 d k; atran := t_atran d k; btran := t_btran d k;
     planck0 := 0; planck1 := 0; P_pp := fst mats; P_mp := snd mats; Q_mm := directly once (fst vecs); Q_pm := directly once (snd vecs) |}.
Definition sees_from (d : deck) (n : nat) (umu : vec) (once : bool) (xs : nat -> slab) : Prop := exists y y0 Y Y0,
  (forall i, (i <= n)%nat -> get_Y (t_four d) 2 (angle d umu i) (y i) = Some (Y i)) /\ get_Y_0 (t_four d) 2 (t_mu0 d) y0 = Some Y0 /\ xs = extended d umu once Y Y0.
(** The surface: [ru j] is the reflection of the stream into the direction j, [ru0 j] that of the beam *)
Definition mirror (g : ground) (ru : vec) : mat := fun i c =>
  match g, c with Some (r, _), O => match i with O => r | S j => ru j end | _, _ => 0 end.
Definition glints (d : deck) (solar : bool) (m : nat) (g : ground) (ru0 : vec) (once : bool) : vec := fun i =>
  match i, g with
  | O, _ => glint d solar m g
  | S j, Some _ => if solar && once then t_F0 d * t_mu0 d / PI * t_btran d (S m) * ru0 j else 0
  | _, _ => 0
  end.
(** The conditions: directions between the horizon and the vertical, in resonance neither with the diffuse light of a layer nor with the beam *)
Definition clear (d : deck) (m : nat) (solar : bool) (n : nat) (umu : vec) : Prop := forall j, (j < n)%nat -> 0 < umu j <= 1 /\
  forall k, (k <= m)%nat -> umu j * umu j * decay d k <> 1 /\ (solar = true -> umu j * t_as0 d k <> 1 /\ umu j * t_as0 d k <> -1).
(** The light at the level [l] of the atmosphere with the layers 0 to m *)
Definition at_the_level (d : deck) (m : nat) (f : nat -> beam) (i l : nat) : R := if (l <=? m)%nat then f l i 0 else f m i (t_ltau d m).
(** Levels of output that the interface accepts: growing, none below the bottom *)
Definition increasing (N m : nat) (levels : nat -> nat) : Prop :=
  (0 < N)%nat /\ (forall p q, (p < q)%nat -> (q < N)%nat -> (levels p < levels q)%nat) /\ (forall q, (q < N)%nat -> (levels q <= S m)%nat).
(** Depths of output: [layer q] and the depth [tau q] below the top of this layer, further and further down *)
Definition descending (N m : nat) (d : deck) (layer : nat -> nat) (tau : nat -> R) : Prop :=
  (0 < N)%nat /\ (forall p q, (p <= q)%nat -> (q < N)%nat -> (layer p <= layer q)%nat) /\ (forall q, (q < N)%nat -> (layer q <= m)%nat /\ 0 <= tau q <= t_ltau d (layer q)).

(** The light that is scattered once and in error at the depth [t] of the layer [x] into its direction [i], if the flux [F] is taken for that of the beam
    between there and the boundary from which light enters *)
Definition excess_up (solar : bool) (F : R) (x : slab) (i : nat) (t : R) : R := if solar then
  (F - flux0 x) / (4 * PI) * omega x * btran x * Q_pm x i * ((exp (- as_0 x * t) - exp (- as_0 x * ltau x) * exp ((t - ltau x) / qx x i)) / (1 + qx x i * as_0 x)) else 0.
Definition excess_down (solar : bool) (F : R) (x : slab) (i : nat) (t : R) : R := if solar then
  (F - flux0 x) / (4 * PI) * omega x * btran x * Q_mm x i * ((exp (- as_0 x * t) - exp (- t / qx x i)) / (1 - qx x i * as_0 x)) else 0.
