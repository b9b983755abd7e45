(** What a surface reflects: the kernels of the literature in terms of the angles of the incident and of the reflected light.
    Roujean et al. 1992, Wanner et al. 1995 (Ross, Li), Hapke 1993, Rahman et al. 1993, Cox and Munk 1954, as collected by Spurr 2004.
    No reference to how the code computes anything. *)
From Coq Require Import Reals.
Open Scope R_scope.

(** zenith angles of the incident and of the reflected light, difference of their azimuths (0: the light returns to the sun) *)
Section Kernels.
Variables ti tr phi : R.
Definition cos_phase (ti tr : R) : R := cos ti * cos tr + sin ti * sin tr * cos phi.
Definition gap (ti tr : R) : R := sqrt (tan ti * tan ti + tan tr * tan tr - 2 * tan ti * tan tr * cos phi).
Definition phase : R := acos (cos_phase ti tr).

Definition roujean_brdf : R :=
  1 / (2 * PI) * ((PI - phi) * cos phi + sin phi) * tan ti * tan tr - 1 / PI * (tan ti + tan tr + gap ti tr).
Definition ross_thin_brdf : R := ((PI / 2 - phase) * cos phase + sin phase) / (cos ti * cos tr) - PI / 2.
Definition ross_thick_brdf : R := ((PI / 2 - phase) * cos phase + sin phase) / (cos ti + cos tr) - PI / 4.

(** crowns of the shape b / r at the relative height h / b *)
Section Li.
Variables shape height : R.
Definition crown (t : R) : R := atan (shape * tan t).
Definition sec (t : R) : R := 1 / cos t.
Definition secs : R := sec (crown ti) + sec (crown tr).
(** the cosine of the angle that describes how much of the shadows overlaps *)
Definition cos_overlap : R :=
  height * sqrt (gap (crown ti) (crown tr) * gap (crown ti) (crown tr) +
                 (tan (crown ti) * tan (crown tr) * sin phi) * (tan (crown ti) * tan (crown tr) * sin phi)) / secs.
Definition overlap : R :=
  if Rlt_dec 1 cos_overlap then 0 else let t := acos cos_overlap in 1 / PI * (t - sin t * cos t) * secs.
Definition li_sparse_brdf : R := overlap - secs + 1 / 2 * (1 + cos_phase (crown ti) (crown tr)) * sec (crown tr).
Definition li_dense_brdf : R := (1 + cos_phase (crown ti) (crown tr)) * sec (crown tr) / (secs - overlap) - 2.
End Li.

(** single scattering albedo, amplitude and width of the hot spot *)
Definition hapke_brdf (albedo amplitude width : R) : R :=
  let H := fun t => (1 + 2 * cos t) / (1 + 2 * cos t * sqrt (1 - albedo)) in
  let B := amplitude * width / (width + tan (phase / 2)) in
  let P := 1 + 1 / 2 * cos phase in
  albedo / (4 * (cos ti + cos tr)) * ((1 + B) * P + H ti * H tr - 1).
(** amplitude, asymmetry and angular spread *)
Definition rahman_brdf (amplitude asymmetry spread : R) : R :=
  let P := (1 - asymmetry * asymmetry) / Rpower (1 + asymmetry * asymmetry + 2 * asymmetry * cos phase) (3 / 2) in
  amplitude * P * (1 + (1 - amplitude) / (1 + gap ti tr)) * Rpower (cos ti * cos tr * (cos ti + cos tr)) (spread - 1).

(** Fresnel: unpolarised light that falls at the angle [t] on a medium of the refractive index [n] *)
Definition fresnel (n t : R) : R :=
  let u := asin (sin t / n) in
  let s := (cos t - n * cos u) / (cos t + n * cos u) in
  let p := (n * cos t - cos u) / (n * cos t + cos u) in
  (s * s + p * p) / 2.
(** Facets of a sea with the mean square slope [slope] reflect like mirrors: the angle of incidence is half the phase angle, and the tilt of
    the facet that mirrors one direction into the other follows from the directions. *)
Definition tilt : R := acos ((cos ti + cos tr) / (2 * cos (phase / 2))).
Definition cox_munk_brdf (slope n : R) : R :=
  fresnel n (phase / 2) * (exp (- (tan tilt * tan tilt) / slope) / (PI * slope * 4 * cos ti * cos tr * (cos tilt * cos tilt * (cos tilt * cos tilt)))).
End Kernels.

(** The kernels that depend on the azimuth, with their parameters *)
Inductive shape : Type :=
| S_roujean | S_ross_thin | S_ross_thick
| S_li_sparse (shape height : R) | S_li_dense (shape height : R)
| S_hapke (albedo amplitude width : R)
| S_rahman (amplitude asymmetry spread : R)
| S_cox_munk (slope n : R).
Definition brdf (s : shape) (ti tr phi : R) : R := match s with
  | S_roujean => roujean_brdf ti tr phi
  | S_ross_thin => ross_thin_brdf ti tr phi
  | S_ross_thick => ross_thick_brdf ti tr phi
  | S_li_sparse b h => li_sparse_brdf ti tr phi b h
  | S_li_dense b h => li_dense_brdf ti tr phi b h
  | S_hapke a b w => hapke_brdf ti tr phi a b w
  | S_rahman a g s => rahman_brdf ti tr phi a g s
  | S_cox_munk s n => cox_munk_brdf ti tr phi s n
  end.
(** The parameters for which the kernels mean something *)
Definition sensible (s : shape) : Prop := match s with
  | S_roujean | S_ross_thin | S_ross_thick => True
  | S_li_sparse _ h | S_li_dense _ h => 0 <= h
  | S_hapke a _ w => a <= 1 /\ 0 < w
  | S_rahman _ g _ => -1 < g < 1
  | S_cox_munk s n => 0 < s /\ 1 <= n
  end.
(** A zenith angle of light that comes from or goes to the sky *)
Definition from_sky (t : R) : Prop := 0 <= t < PI / 2.

(** A surface is a sum of terms: light that is reflected alike in all azimuths, and light whose reflection depends on the angles *)
Inductive term := Flat (amount : R) | Turning (amount : R) (f : R -> R -> R -> R).
Fixpoint upto (n : nat) (f : nat -> R) : R := match n with O => 0 | Datatypes.S k => upto k f + f k end.
Section Surface.
(** the nodes and the weights of the means over the azimuth *)
Variables (n : nat) (node weight : nat -> R).
(** the m-th coefficient of the cosine series *)
Definition coefficient (m : nat) (f : R -> R) : R :=
  (if Nat.eqb m 0 then 1 else 2) * upto n (fun k => weight k * cos (INR m * node k) * f (node k)).
Definition part (m : nat) (ti tr : R) (t : term) : R := match t with
  | Flat a => if Nat.eqb m 0 then a else 0
  | Turning a f => a * coefficient m (f ti tr)
  end.
Definition surface (m : nat) (ti tr : R) (ts : list term) : R := List.fold_right (fun t s => part m ti tr t + s) 0 ts.
End Surface.
