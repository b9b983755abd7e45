(** How the inputs of a layer may vary, and when eigenvalues and eigenvectors can be differentiated. *)
From Coq Require Import Reals Bool Arith.
From Verif Require Import DeltaMSpec AddingModel AddingSpec EigModel EigSpec.
Open Scope R_scope.

(** Along the path [X] with derivative [dx] at [p] only what the flags allow varies: of the layer itself, of the beam that passes through it,
    of its thermal emission. *)
Definition varies (n : nat) (dl db dt : bool) (X : R -> slab) (p : R) (dx : slab) : Prop :=
  (forall s, qx (X s) = qx (X p) /\ qw (X s) = qw (X p) /\ zeroth (X s) = zeroth (X p) /\ flux0 (X s) = flux0 (X p)) /\
  (if dl
   then derivable_pt_lim (fun s => omega (X s)) p (omega dx) /\ derivable_pt_lim (fun s => ltau (X s)) p (ltau dx) /\
        mderiv n (fun s => P_pp (X s)) p (P_pp dx) /\ mderiv n (fun s => P_mp (X s)) p (P_mp dx) /\
        vderiv n (fun s => Q_mm (X s)) p (Q_mm dx) /\ vderiv n (fun s => Q_pm (X s)) p (Q_pm dx)
   else forall s, omega (X s) = omega (X p) /\ ltau (X s) = ltau (X p) /\ P_pp (X s) = P_pp (X p) /\ P_mp (X s) = P_mp (X p) /\
                  Q_mm (X s) = Q_mm (X p) /\ Q_pm (X s) = Q_pm (X p)) /\
  (if db
   then derivable_pt_lim (fun s => as_0 (X s)) p (as_0 dx) /\ derivable_pt_lim (fun s => atran (X s)) p (atran dx) /\
        derivable_pt_lim (fun s => btran (X s)) p (btran dx)
   else forall s, as_0 (X s) = as_0 (X p) /\ atran (X s) = atran (X p) /\ btran (X s) = btran (X p)) /\
  (if dt
   then derivable_pt_lim (fun s => planck0 (X s)) p (planck0 dx) /\ derivable_pt_lim (fun s => planck1 (X s)) p (planck1 dx)
   else forall s, planck0 (X s) = planck0 (X p) /\ planck1 (X s) = planck1 (X p)).

(** The eigenvalues are distinct. *)
Definition distinct (n : nat) (lam : vec) : Prop := forall i j, (i < n)%nat -> (j < n)%nat -> i <> j -> lam i <> lam j.
(** A differentiable eigensystem of the matrices [m s], with eigenvectors of constant length *)
Definition eigenpath (n : nat) (m : R -> mat) (p : R) (e : R -> vec * mat) (lam' : vec) (v' : mat) : Prop :=
  around p (fun s => eigensystem n (m s) (e s)) /\
  vderiv n (fun s => fst (e s)) p lam' /\ mderiv n (fun s => snd (e s)) p v' /\
  around p (fun s => forall k, (k < n)%nat -> total n (fun j => snd (e s) j k * snd (e s) j k) = total n (fun j => snd (e p) j k * snd (e p) j k)).

(** The eigenvalues of the medium are distinct. *)
Definition simple_spectrum (n : nat) (mu w : vec) (c : R) (Ps Po : mat) : Prop :=
  exists e, eigensystem n (second_order n mu w c Ps Po) e /\ distinct n (fst e).
(** An eigenvector of unit length with no more than one component above the precision of the floating point numbers is that of a direction without
    weight, and has no other component: no direction with weight is decoupled from the others. *)
Definition coupled (n : nat) (mu w : vec) (c : R) (Ps Po : mat) : Prop :=
  forall lam v i, (1 < n)%nat -> (i < n)%nat -> total n (fun j => v j * v j) = 1 ->
    (forall j, (j < n)%nat -> total n (fun k => second_order n mu w c Ps Po j k * v k) = lam * v j) ->
    (forall j, (j < n)%nat -> j <> i -> Rabs (v j) <= / 2 ^ 52) ->
    w i = 0 /\ forall j, (j < n)%nat -> j <> i -> v j = 0.
(** LAPACK's contract for dgeev: eigenvectors of unit length *)
Definition normalised (n : nat) (eig : mat -> vec * mat) : Prop := forall m k, (exists e, eigensystem n m e) -> (k < n)%nat ->
  total n (fun j => snd (eig m) j k * snd (eig m) j k) = 1.
