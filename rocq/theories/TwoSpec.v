(** What the two-stream solver is asked for: the light of the same atmosphere as the general solvers see with one stream in each hemisphere, the phase
    function being what the scattering code (ScatModel) makes of the first two coefficients of its expansion.  No reference to how the two-stream
    solver computes anything. *)
From Coq Require Import Reals Bool Arith.
From Verif Require Import DeltaMSpec AddingModel AddingSpec EigModel EigSpec AtmSpec ScatModel.
Open Scope R_scope.

(** The inputs: the order of the Fourier component, the cosine of the stream, the beam (flux and cosine), and for each layer the coefficients of
    the phase function, the single scattering albedo, optical thickness, attenuation of the beam, its transmittance through the layer and through
    the layers above *)
Record deck := {
  t_four : nat; t_qx : R; t_F0 : R; t_mu0 : R;
  t_coef : nat -> nat -> R;
  t_omega : nat -> R; t_ltau : nat -> R; t_as0 : nat -> R; t_atran : nat -> R; t_btran : nat -> R
}.
(** The surface, if there is one: reflection of the stream, and of the beam into the stream *)
Definition ground := option (R * R).

Definition constant (x : R) : vec := fun _ => x.
(** One layer as the general solvers see it: [Y] and [Y0] are the functions of the order at the stream and at the beam, two each. *)
Definition general (d : deck) (Y Y0 : array) (k : nat) : slab :=
  let mats := build_phase_mats (t_four d) 2 (fun _ => Y) (fun _ => Y) (t_coef d k) in
  let vecs := phase_vecs_get (t_four d) 2 (fun _ => Y) Y0 (t_coef d k) in
  {| qx := constant (t_qx d); qw := constant 1; zeroth := (t_four d =? 0)%nat; flux0 := t_F0 d;
     omega := t_omega d k; ltau := t_ltau d k; as_0 := t_as0 d k; atran := t_atran d k; btran := t_btran d k;
     planck0 := 0; planck1 := 0; P_pp := fst mats; P_mp := snd mats; Q_mm := fst vecs; Q_pm := snd vecs |}.
Definition sees (d : deck) (xs : nat -> slab) : Prop := exists y y0 Y Y0,
  get_Y (t_four d) 2 (t_qx d) y = Some Y /\ get_Y_0 (t_four d) 2 (t_mu0 d) y0 = Some Y0 /\ xs = general d Y Y0.
Definition reflection (g : ground) : option mat := match g with None => None | Some (r, _) => Some (fun _ _ => r) end.
(** The beam that the surface below the layers 0 to m reflects into the stream *)
Definition glint (d : deck) (solar : bool) (m : nat) (g : ground) : R :=
  match g with Some (_, r0) => if solar then t_F0 d * t_mu0 d / PI * t_btran d (S m) * r0 else 0 | None => 0 end.

(** The conditions of the theorems.  The coefficients are normalised; the stream is neither horizontal nor vertical; nothing is amplified: not all
    light is scattered back into the streams; the beam is not in resonance with a layer. *)
Definition share (d : deck) (k : nat) : R :=
  if (t_four d =? 0)%nat then t_omega d k * Rmax 1 (Rabs (t_coef d k 1%nat) * (t_qx d * t_qx d))
  else t_omega d k * (Rabs (t_coef d k 1%nat) * (1 - t_qx d * t_qx d)) / 2.
(** The square of the rate at which diffuse light decays *)
Definition decay (d : deck) (k : nat) : R :=
  if (t_four d =? 0)%nat then (1 - t_omega d k) * (1 - t_omega d k * t_coef d k 1%nat * (t_qx d * t_qx d)) / (t_qx d * t_qx d)
  else (1 - t_omega d k * t_coef d k 1%nat * (1 - t_qx d * t_qx d) / 2) / (t_qx d * t_qx d).
Definition tame (d : deck) (m : nat) (solar : bool) (g : ground) : Prop :=
  (t_four d <= 1)%nat /\ 0 < t_qx d < 1 /\ 0 < t_mu0 d <= 1 /\
  (forall k, (k <= m)%nat -> t_coef d k 0%nat = 1 /\ 0 <= t_omega d k /\ 0 <= t_ltau d k /\ share d k < 1) /\
  (solar = true -> forall k, (k <= m)%nat -> t_as0 d k <> 0 /\ t_as0 d k * t_as0 d k <> decay d k /\ t_atran d k = exp (- t_as0 d k * t_ltau d k)) /\
  (forall r r0, g = Some (r, r0) -> r * r <= 1).

(** LAPACK's contract for dgetrf and dgetrs: a nonsingular matrix is factored and systems with it are solved. *)
Definition lu_solver (N : nat) (lu : mat -> option (vec -> vec)) : Prop :=
  forall a, nonsingular N a -> exists f, lu a = Some f /\ forall v r, (r < N)%nat -> total N (fun c => a r c * f v c) = v r.
