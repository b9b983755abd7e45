(** What finite differences are about. *)
From Coq Require Import Reals Bool Arith List.
From Verif Require Import Base FdModel.
Open Scope R_scope.

(** The inputs moved by [t] times the perturbation.  The boundary illumination and the emission move only with thermal sources. *)
Definition moved (sz : sizes) (s : inputs) (t : R) (p : step) : inputs :=
  let th x := if thermal sz then x else 0 in
  {| top := top s + t * th (top_p p); bot := bot s + t * th (bot_p p); surf := surf s + t * th (surf_p p);
     lev := fun i => lev s i + t * (if Nat.leb i (nL sz) then th (lev_p p i) else 0);
     ncoef := ncoef s;
     coef := fun i k l => coef s i k l + t * (if Nat.ltb i (nL sz) && Nat.ltb k (nE sz) && Nat.ltb l (ncoef s i) then coef_p p i k l else 0);
     omega := fun i => omega s i + t * (if Nat.ltb i (nL sz) then omega_p p i else 0);
     ltau := fun i => ltau s i + t * (if Nat.ltb i (nL sz) then ltau_p p i else 0);
     amp := fun i => amp s i + t * (if Nat.ltb i (nK sz) then amp_p p i else 0);
     par := fun i k => par s i k + t * (if Nat.ltb i (nK sz) && Nat.ltb k (kp sz i) then par_p p i k else 0) |}.
(** Moved by all the perturbations before [j], one after the other *)
Fixpoint moved_all (sz : sizes) (s : inputs) (t : R) (p : nat -> step) (j : nat) : inputs :=
  match j with O => s | S k => moved sz (moved_all sz s t p k) t (p k) end.
(** Values that can be set and are then as they were given *)
Definition admissible (sz : sizes) (s : inputs) : Prop :=
  (thermal sz = true -> 0 <= top s /\ 0 <= bot s /\ 0 <= surf s /\ forall i, (i <= nL sz)%nat -> 0 <= lev s i) /\
  (forall i, (i < nL sz)%nat -> (ncoef s i <= nC sz)%nat /\ ((1 < ncoef s i)%nat -> Rabs (1 - coef s i 0%nat 0%nat) <= eps) /\
     0 <= omega s i <= 1 - thr sz /\ 0 < ltau s i) /\
  (forall i, (i < nK sz)%nat -> 0 <= amp s i <= 1).
(** A direction, and a step of size [h] along it *)
Definition times (h : R) (v : step) : step :=
  {| top_p := h * top_p v; bot_p := h * bot_p v; surf_p := h * surf_p v; lev_p := fun i => h * lev_p v i; coef_p := fun i k l => h * coef_p v i k l;
     omega_p := fun i => h * omega_p v i; ltau_p := fun i => h * ltau_p v i; amp_p := fun i => h * amp_p v i; par_p := fun i k => h * par_p v i k |}.
(** Around [s] in the direction [v] the radiances exist and output [o] has the derivative [D]. *)
Definition slope (sz : sizes) (solve : inputs -> option field) (s : inputs) (v : step) (o : nat) (D : R) : Prop :=
  exists F e, 0 < e /\ (forall t, Rabs t < e -> admissible sz (moved sz s t v) /\ solve (moved sz s t v) = Some (F t)) /\
    derivable_pt_lim (fun t => F t o) 0 D.
