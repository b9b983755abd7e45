(** The surface: kernels, their sum and its Fourier components (src/xrtm_brdf.c 91-187, 288-1069), and the adjoints (src/xrtm_brdf_a.c),
    as src/xrtm_model.c (138-141, 3777-3905) and src/xrtm_model_a.c (1654-1737) call them without the symmetric form.
    Numbers are reals or [None]: not a number, or an array element that nothing has written.
    Simplified: brdf_build_kernel_vecs and brdf_build_kernel_mats have the same body for one and for two directions; they are one definition over a
    list of cells (row, column), a vector having the one column 0. *)
From Coq Require Import Reals List Arith Bool.
Import ListNotations.
Open Scope R_scope.

Definition num := option R.
Definition bind (a : num) (f : R -> num) : num := match a with Some x => f x | None => None end.
Notation "x <- a ;; b" := (bind a (fun x => b)) (at level 61, a at next level, right associativity).
Definition nadd (a b : num) : num := x <- a ;; y <- b ;; Some (x + y).
Definition nmul (a b : num) : num := x <- a ;; y <- b ;; Some (x * y).
(** the functions of the C library, and division, outside of their domains *)
Definition nsqrt (x : R) : num := if Rle_dec 0 x then Some (sqrt x) else None.
Definition nacos (x : R) : num := if Rle_dec (-1) x then if Rle_dec x 1 then Some (acos x) else None else None.
Definition nasin (x : R) : num := if Rle_dec (-1) x then if Rle_dec x 1 then Some (asin x) else None else None.
Definition ntan (x : R) : num := if Req_EM_T (cos x) 0 then None else Some (tan x).
Definition ndiv (x y : R) : num := if Req_EM_T y 0 then None else Some (x / y).
Definition npow (x y : R) : num := if Rlt_dec 0 x then Some (Rpower x y) else None.

(** brdf_aux_calc_base (xrtm_brdf.c:138-156), _part (160-172), _mu_0 (176-187) *)
Record angle := { cos_t : R; sin_t : R; tan_t : R; tan_t2 : R }.
Definition angle_of (mu : R) (k : angle -> num) : num :=
  s <- nsqrt (1 - mu * mu) ;; t <- ndiv s mu ;; k {| cos_t := mu; sin_t := s; tan_t := t; tan_t2 := t * t |}.
Record azimuth := { cos_p : R; sin_p : R; sin_p2 : R }.
Definition azimuth_of (x : R) : azimuth := {| cos_p := cos x; sin_p := sin x; sin_p2 := sin x * sin x |}.

(** The kernels: [i] and [j] are the angles of the incident and the reflected light, [z] the azimuth of the quadrature point, [phi] the same with
    its sign, [p] the parameters *)
Section Kernels.
Variables (i j : angle) (z : azimuth) (phi : R) (p : nat -> R).
(** roujean_aux (373-383), roujean_kernel (387-400) *)
Definition roujean : num :=
  let a := tan_t i + tan_t j in
  let b := tan_t2 i + tan_t2 j in
  let t := tan_t i * tan_t j in
  let c := 2 * t in
  let d := t / (2 * PI) in
  let sg := if Rlt_dec phi 0 then -1 else 1 in
  s <- nsqrt (b - c * cos_p z) ;;
  let delta := (a + s) / PI in
  Some (((PI - sg * phi) * cos_p z + sin_p z) * d - delta).
(** li_aux (408-435), li_common (439-462): [p_], [q] and [r] *)
Definition li (k : R -> R -> R -> num) : num :=
  let ti := p 0%nat * tan_t i in
  let tr := p 0%nat * tan_t j in
  let ci := cos (atan ti) in let si := sin (atan ti) in
  let cr := cos (atan tr) in let sr := sin (atan tr) in
  let a := ci * cr in
  let b := si * sr in
  let c := ti * ti + tr * tr in
  let d := ti * tr * 2 in
  let e := ti * ti * (tr * tr) in
  r1 <- ndiv 1 ci ;; r2 <- ndiv 1 cr ;;
  let r := r1 + r2 in
  g <- ndiv (p 1%nat) r ;;
  let cos_ksi := a + b * cos_p z in
  p_ <- ndiv (1 + cos_ksi) cr ;;
  d' <- nsqrt (c - d * cos_p z) ;;
  h <- nsqrt (d' * d' + e * sin_p2 z) ;;
  let cos_t := g * h in
  q <- (if Rlt_dec 1 cos_t then Some 1
        else ac <- nacos cos_t ;; s <- nsqrt (1 - cos_t * cos_t) ;; Some (1 - (ac - s * cos_t) / PI)) ;;
  k p_ q r.
(** li_sparse_kernel (467-477), li_dense_kernel (481-491) *)
Definition li_sparse : num := li (fun p_ q r => Some (1 / 2 * p_ - q * r)).
Definition li_dense : num := li (fun p_ q r => x <- ndiv p_ (q * r) ;; Some (x - 2)).
(** ross_aux (498-503), ross_thin_kernel (507-519), ross_thick_kernel (523-535) *)
Definition ross_thin : num :=
  let a := cos_t i * cos_t j in let b := sin_t i * sin_t j in
  let cos_ksi := a + b * cos_p z in
  ksi <- nacos cos_ksi ;;
  x <- ndiv ((PI / 2 - ksi) * cos_ksi + sin ksi) a ;; Some (x - PI / 2).
Definition ross_thick : num :=
  let a := cos_t i * cos_t j in let b := sin_t i * sin_t j in let c := cos_t i + cos_t j in
  let cos_ksi := a + b * cos_p z in
  ksi <- nacos cos_ksi ;;
  x <- ndiv ((PI / 2 - ksi) * cos_ksi + sin ksi) c ;; Some (x - PI / 4).
(** hapke_aux (544-565), hapke_kernel (569-587) *)
Definition hapke : num :=
  R_ir <- ndiv (p 0%nat) ((cos_t i + cos_t j) * 4) ;;
  let a := cos_t i * cos_t j in let b := sin_t i * sin_t j in
  let c := p 1%nat * p 2%nat in
  gamma <- nsqrt (1 - p 0%nat) ;;
  let a2 := 2 * cos_t i in let b2 := 2 * cos_t j in
  d1 <- ndiv (1 + a2) (1 + a2 * gamma) ;; d2 <- ndiv (1 + b2) (1 + b2 * gamma) ;;
  let d := d1 * d2 in
  let cos_ksi := a + b * cos_p z in
  let P := 1 + 1 / 2 * cos_ksi in
  ksi <- nacos cos_ksi ;;
  t <- ntan (ksi / 2) ;;
  B <- ndiv c (p 2%nat + t) ;;
  Some (R_ir * ((1 + B) * P + d - 1)).
(** rahman_aux (596-609), rahman_kernel (613-631) *)
Definition rahman : num :=
  let a := cos_t i * cos_t j in let b := sin_t i * sin_t j in
  let g2 := p 1%nat * p 1%nat in
  let c := 2 * p 1%nat in
  let d := tan_t2 i + tan_t2 j in
  let e := tan_t i * tan_t j * 2 in
  let g := a * (cos_t i + cos_t j) in
  let cos_ksi := a + b * cos_p z in
  pw <- npow (1 + g2 + c * cos_ksi) (3 / 2) ;;
  P <- ndiv (1 - g2) pw ;;
  delta <- nsqrt (d - e * cos_p z) ;;
  R <- ndiv (1 - p 0%nat) (1 + delta) ;;
  gp <- npow g (p 2%nat - 1) ;;
  Some (p 0%nat * P * (1 + R) * gp).
(** cox_munk_aux (639-648), cox_munk_kernel (652-691) *)
Definition cox_munk : num :=
  let a := cos_t i * cos_t j in let b := sin_t i * sin_t j in
  let c := (cos_t i + cos_t j) / 2 in
  let d := 4 * a * PI * p 0%nat in
  let cos_ksi := a + b * cos_p z in
  ksi <- nacos cos_ksi ;;
  let lambda := cos (ksi / 2) in
  let a' := p 1%nat * lambda in
  c' <- nsqrt (p 1%nat + (lambda * lambda - 1)) ;;
  r_p <- ndiv (a' - c') (a' + c') ;;
  r_m <- ndiv (lambda - c') (lambda + c') ;;
  let R := (r_p * r_p + r_m * r_m) / 2 in
  gamma <- ndiv c lambda ;;
  let gamma2 := gamma * gamma in
  as_ <- nasin gamma ;;
  tau <- ntan (PI / 2 - as_) ;;
  P1 <- ndiv 1 (d * (gamma2 * gamma2)) ;;
  ex <- ndiv (- (tau * tau)) (p 0%nat) ;;
  Some (R * (P1 * exp ex)).
End Kernels.

(** enum xrtm_kernel_type, enum xrtm_brdf_geometry (xrtm_brdf.h:21-45); a user-defined kernel comes with its functions, the one that prepares its
    data folded into them *)
Inductive geometry := QQ | Q0 | UQ | U0.
Inductive kernel :=
| Lambertian | Direct_and_diffuse | Roujean | Li_sparse | Li_dense | Ross_thin | Ross_thick | Hapke | Rahman | Cox_munk
| User_defined (f : geometry -> angle -> angle -> azimuth -> R -> (nat -> R) -> num)
               (f_l : geometry -> angle -> angle -> azimuth -> R -> (nat -> R) -> (nat -> R) -> num).
(** brdf_needs_fourier (95-105) for one kernel *)
Definition needs_fourier (k : kernel) : bool := match k with Lambertian | Direct_and_diffuse => false | _ => true end.
(** direct_diffuse_param (330-345) *)
Definition direct_diffuse_param (g : geometry) (p : nat -> R) : R := match g with QQ => p 3%nat | Q0 => p 1%nat | UQ => p 2%nat | U0 => p 0%nat end.
(** A kernel of the handle *)
Record entry := { kind : kernel; ampfac : R; ampfac_l : nat -> R; params : nat -> R; params_l : nat -> nat -> R }.

Section Build.
Variables (qx : nat -> R) (n_kernel_quad : nat) (kernel_qx : nat -> R) (geom : geometry).
Variables (n_derivs : nat) (derivs : nat -> bool).
(** Where a kernel is evaluated: the element of kernel_f, the quadrature point and the azimuth; a cell has the index of the reflected and the incident
    direction in the array of cosines *)
Record cell := { at_row : nat; at_col : nat; to_dir : nat; from_dir : nat }.
Record visit := { row : nat; spot : cell; point : nat; azim : R }.
(** call_aux_func (698-736), call_kernel_func (743-774): the value ... *)
Definition value (e : entry) (v : visit) : num :=
  match kind e with
  | Lambertian => Some 1                                                   (* 292-311 *)
  | Direct_and_diffuse => Some (direct_diffuse_param geom (params e))      (* 347-360 *)
  | k =>
    angle_of (qx (from_dir (spot v))) (fun i => angle_of (qx (to_dir (spot v))) (fun j =>
      let z := azimuth_of (kernel_qx (point v)) in
      match k with
      | Roujean => roujean i j z (azim v)
      | Li_sparse => li_sparse i j z (params e)
      | Li_dense => li_dense i j z (params e)
      | Ross_thin => ross_thin i j z
      | Ross_thick => ross_thick i j z
      | Hapke => hapke i j z (params e)
      | Rahman => rahman i j z (params e)
      | Cox_munk => cox_munk i j z (params e)
      | User_defined f _ => f geom i j z (azim v) (params e)
      | _ => None
      end))
  end.
(** ... and the derivatives that it writes into f_l, if it writes any *)
Definition report (e : entry) (v : visit) (l : nat) : option num :=
  if ((l <? n_derivs)%nat && derivs l)%bool then
    match kind e with
    | Lambertian => Some (Some 0)
    | Direct_and_diffuse => Some (Some (direct_diffuse_param geom (params_l e l)))
    | User_defined _ f_l =>
      Some (angle_of (qx (from_dir (spot v))) (fun i => angle_of (qx (to_dir (spot v))) (fun j =>
        f_l geom i j (azimuth_of (kernel_qx (point v))) (azim v) (params e) (params_l e l))))
    | _ => None
    end
  else None.

(** kernel_f, kernel_f_l and the work array f_l *)
Record state := { kf : nat -> nat -> nat -> num; kf_l : nat -> nat -> nat -> nat -> num; f_l : nat -> num }.
Definition here (v : visit) (r a b : nat) : bool := ((r =? row v) && (a =? at_row (spot v)) && (b =? at_col (spot v)))%nat%bool.
(** one evaluation and the sums (815-853, 955-998) *)
Definition evaluate (e : entry) (st : state) (v : visit) : state :=
  let f := value e v in
  let b := fun l => match report e v l with Some x => x | None => f_l st l end in
  {| kf := fun r x y => if here v r x y then nadd (kf st r x y) (nmul f (Some (ampfac e))) else kf st r x y;
     kf_l := fun l r x y => if ((l <? n_derivs)%nat && derivs l && here v r x y)%bool
       then nadd (kf_l st l r x y) (nadd (nmul (b l) (Some (ampfac e))) (nmul f (Some (ampfac_l e l)))) else kf_l st l r x y;
     f_l := b |}.
(** the loops over the cells and the quadrature points: the points k and then, in the rows n_kernel_quad + k + 1, the same with the other sign *)
Definition visits (e : entry) (cells : list cell) : list visit :=
  if needs_fourier (kind e) then
    flat_map (fun c => flat_map (fun k => [ {| row := k + 1; spot := c; point := k; azim := kernel_qx k |};
                                            {| row := n_kernel_quad + k + 1; spot := c; point := k; azim := - kernel_qx k |} ]) (seq 0 n_kernel_quad)) cells
  else map (fun c => {| row := 0; spot := c; point := 0; azim := 0 |}) cells.
(** brdf_build_kernel_vecs (781-857), brdf_build_kernel_mats (921-1002); [old]: what kernel_f_l and the work array held *)
Definition build (kernels : list entry) (cells : list cell) (old : nat -> nat -> nat -> nat -> num) : state :=
  fold_left (fun st e => fold_left (evaluate e) (visits e cells) st) kernels
    {| kf := fun _ _ _ => Some 0; kf_l := fun l r x y => if ((l <? n_derivs)%nat && derivs l)%bool then Some 0 else old l r x y; f_l := fun _ => None |}.
(** the cells of a vector (816, 828) and of a matrix *)
Definition vec_cells (i_offset n j_offset : nat) : list cell :=
  map (fun j => {| at_row := j; at_col := 0; to_dir := i_offset + j; from_dir := j_offset |}) (seq 0 n).
Definition mat_cells (i_offset n1 j_offset n2 : nat) : list cell :=
  flat_map (fun j => map (fun k => {| at_row := j; at_col := k; to_dir := i_offset + j; from_dir := j_offset + k |}) (seq 0 n2)) (seq 0 n1).
End Build.

Section Reflect.
Variables (n_kernel_quad : nat) (kernel_qx kernel_qw : nat -> R).
Definition zeroth (i_four : nat) : R := if (i_four =? 0)%nat then 1 else 0.
(** brdf_needs_fourier (95-105) *)
Definition flag (kernels : list entry) : bool := existsb (fun e => needs_fourier (kind e)) kernels.
(** the sums of brdf_build_ref_vec (881-910) and brdf_build_ref_mat (1028-1060) for one element of kernel_f; the array is zeroed for i_four > 0 *)
Definition component (i_four : nat) (fl : bool) (f : nat -> num) : num :=
  if fl then
    fold_left (fun s k => nadd (nadd s (nmul (f (k + 1)%nat) (Some (kernel_qw k * cos (INR i_four * kernel_qx k) / 2))))
                               (nmul (f (n_kernel_quad + k + 1)%nat) (Some (kernel_qw k * cos (INR i_four * - kernel_qx k) / 2))))
      (seq 0 n_kernel_quad) (if (i_four =? 0)%nat then f 0%nat else Some 0)
  else f 0%nat.
(** brdf_build_ref_vec (864-914): the Stokes component s of row i; the others are zeroed *)
Definition ref_vec (i_four : nat) (fl : bool) (f : nat -> nat -> nat -> num) (i s : nat) : num :=
  if (s =? 0)%nat then nmul (component i_four fl (fun r => f r i 0%nat)) (Some (2 - zeroth i_four)) else Some 0.
(** brdf_build_ref_mat (1009-1069): row i, column j, Stokes components s and t *)
Definition ref_mat (i_four : nat) (fl : bool) (qf : R) (qx qw : nat -> R) (j_offset : nat) (f : nat -> nat -> nat -> num) (i j s t : nat) : num :=
  if ((s =? 0)%nat && (t =? 0)%nat)%bool then
    nmul (component i_four fl (fun r => f r i j))
         (Some ((2 - zeroth i_four) * (1 + zeroth i_four) * qf * qx (j_offset + j)%nat * qw (j_offset + j)%nat))
  else Some 0.
End Reflect.
(** xrtm_create, xrtm_interface.c:1132-1135 *)
Definition quad_factor (n_quad : nat) (qx qw : nat -> R) : R := / 2 / fold_left (fun s i => s + qx i * qw i) (seq 0 n_quad) 0.
(** solar_surface_for_i_four, xrtm_model.c:138-141 *)
Definition solar_surface (kernels : list entry) (i_four : nat) : bool := (negb (match kernels with [] => true | _ => false end) && ((i_four =? 0)%nat || flag kernels))%bool.

(** brdf_vecs_get_a and brdf_mats_get_a (xrtm_model_a.c:1654-1717): brdf_build_ref_vec_a (xrtm_brdf_a.c:52-76), brdf_build_ref_mat_a (114-150) into
    kernel_f_a[0], zero before, scaled by [b]; brdf_build_kernel_vecs_a (24-45), brdf_build_kernel_mats_a (83-107) into ampfac_a *)
Definition ampfac_adjoint (kernels : list entry) (cells : list cell) (b : cell -> R) (R_a : cell -> R) (old : R) (e : entry) : R :=
  let kf_a := fun c => if flag kernels then 0 else 0 + R_a c * b c in
  if needs_fourier (kind e) then old else fold_left (fun s c => s + kf_a c) cells old.
