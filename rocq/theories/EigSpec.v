(** What a layer does to the light: the equation of transfer for n streams in each hemisphere, and the contract of the external
    eigenvalue routine.  No reference to how the code computes anything. *)
From Coq Require Import Reals Bool Arith.
From Verif Require Import DeltaMSpec AddingModel AddingSpec.
Open Scope R_scope.

(** The radiance of stream i at the depth t below the top of the layer, going up or going down *)
Definition beam := nat -> R -> R.

Section Transfer.
Variable n : nat.
Variables (mu w : vec).            (* the cosine of each stream and its quadrature weight *)
Variable c : R.                    (* single scattering albedo times (1 + delta) / 4 *)
Variables (Ps Po : mat).           (* phase function between streams of the same and of opposite hemispheres *)

(** What is scattered into stream [i] from [I] in its own hemisphere and [J] in the opposite one *)
Definition scattered (I J : beam) (i : nat) (t : R) : R :=
  c * total n (fun j => w j * (Ps i j * I j t + Po i j * J j t)).
(** The equation of transfer between the top of the layer and its bottom, with sources [Jp] of upward and [Jm] of downward light:
    depth is measured downwards *)
Definition transfers (Jp Jm : beam) (depth : R) (Ip Im : beam) : Prop :=
  forall i t, (i < n)%nat -> 0 <= t <= depth ->
    derivable_pt_lim (Ip i) t ((Ip i t - scattered Ip Im i t - Jp i t) / mu i) /\
    derivable_pt_lim (Im i) t ((scattered Im Ip i t + Jm i t - Im i t) / mu i).

(** A scattering medium: upward cosines; weights that are positive, or zero for the additional output directions; reciprocity;
    of the light of a stream less than all is scattered. *)
Definition scatters : Prop :=
  (forall i, (i < n)%nat -> 0 < mu i /\ 0 <= w i) /\
  (forall i j, (i < n)%nat -> (j < n)%nat -> Ps i j = Ps j i /\ Po i j = Po j i) /\
  (forall i, (i < n)%nat -> 0 < w i -> Rabs c * total n (fun j => w j * (Rabs (Ps i j) + Rabs (Po i j))) < 1).
(** No solution of the equation without sources goes like exp (- k t). *)
Definition nonresonant (k : R) : Prop :=
  forall a b : vec, (forall depth, transfers (fun _ _ => 0) (fun _ _ => 0) depth (fun i t => a i * exp (- k * t)) (fun i t => b i * exp (- k * t))) ->
  forall i, (i < n)%nat -> a i = 0 /\ b i = 0.
End Transfer.

(** The light that enters and leaves the layer *)
Definition ends (n : nat) (depth : R) (Ip Im : beam) (down1 up2 up1 down2 : vec) : Prop :=
  forall i, (i < n)%nat -> Im i 0 = down1 i /\ Ip i depth = up2 i /\ Ip i 0 = up1 i /\ Im i depth = down2 i.

(** The sources: the beam of flux F, [b] of which reaches the top of the layer and which is attenuated by k per depth, scattered once;
    thermal emission, linear in the depth *)
Definition source (solar thermal : bool) (albedo F b k B0 B1 depth : R) (Q : vec) : beam := fun i t =>
  (if solar then F / (4 * PI) * albedo * Q i * (b * exp (- k * t)) else 0) +
  (if thermal then (1 - albedo) * (B0 + (B1 - B0) * t / depth) else 0).

(** An eigensystem: independent columns of eigenvectors *)
Definition eigensystem (n : nat) (m : mat) (e : vec * mat) : Prop :=
  nonsingular n (snd e) /\
  forall i k, (i < n)%nat -> (k < n)%nat -> total n (fun j => m i j * snd e j k) = fst e k * snd e i k.
(** The difference y of upward and downward light obeys y'' = m y without sources.  The medium is separable if this [m] has a basis of
    real eigenvectors. *)
Definition second_order (n : nat) (mu w : vec) (c : R) (Ps Po : mat) : mat := fun i j =>
  total n (fun k => (c * w k * (Ps i k + Po i k) - ident i k) / mu i * ((c * w j * (Ps k j - Po k j) - ident k j) / mu k)).
Definition separable (n : nat) (mu w : vec) (c : R) (Ps Po : mat) : Prop := exists e, eigensystem n (second_order n mu w c Ps Po) e.
(** LAPACK's contract for dgeev, when there is a basis of real eigenvectors *)
Definition eigensolver (n : nat) (eig : mat -> vec * mat) : Prop := forall m, (exists e, eigensystem n m e) -> eigensystem n m (eig m).
