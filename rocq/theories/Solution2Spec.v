(** Vocabulary of C26 and C27: what the caller of xrtm_solution_2 asked for and expects. *)
From Coq Require Import List Bool Arith ZArith Reals.
From Verif Require Import Base HandleModel Solution2Model.
Import ListNotations.
Open Scope nat_scope.

(** Inside the output arrays; requested outputs are those of a selected direction. *)
Definition in4 (g : s2cfg) (x : nat * nat * nat * nat) : Prop :=
  let '(a, b, c, e) := x in a < s_levels g /\ b < s_mus g /\ c < s_phis g /\ e < s_stokes g.
Definition requested (g : s2cfg) (o : out) : Prop := (if fst o then s_down g else s_up g) = true /\ in4 g (snd o).
(** One output alone, the seed of its gradient. *)
Definition unit_seed {T} (zero one : T) (o : out) : seeds T := fun p => if out_eqb p o then one else zero.
(** The reverse pass reads only the seeds of the arrays. *)
Definition reads_arrays {T} (g : s2cfg) (reverse : seeds T -> option (adj T)) : Prop :=
  forall s s', (forall p, in4 g (snd p) -> s p = s' p) -> reverse s = reverse s'.
(** Sums and the chain rule: the gradient of an output against derivative k of the inputs. *)
Definition sum (n : nat) (f : nat -> R) : R := fold_right Rplus 0%R (map f (seq 0 n)).
Definition chain_rule (g : s2cfg) (ln : lin R) (x : adj R) (k : nat) : R :=
  (sum (s_kernels g) (fun j => l_kamp R ln j k * a_kamp R x j) +
   sum (s_layers g) (fun j => l_ltau R ln j k * a_ltau R x j) +
   sum (s_layers g) (fun j => if l_varies R ln j k then l_omega R ln j k * a_omega R x j else 0) +
   sum (s_layers g) (fun j => if l_varies R ln j k then
     sum (s_elem g) (fun l => sum (s_ncoef g j) (fun m => l_coef R ln j k l m * a_coef R x j l m)) else 0))%R.
(** The calls that take derivatives of inputs. *)
Definition takes_derivatives (o : op) : bool :=
  match o with
  | SetFIsoTopL1 _ _ | SetFIsoTopLn _ | SetFIsoBotL1 _ _ | SetFIsoBotLn _ | SetLevelsBL1 _ _ | SetLevelsBLn _
  | SetSurfaceBL1 _ _ | SetSurfaceBLn _ | SetGL _ _ _ | SetCoefL11 _ _ _ | SetCoefLn1 _ _ | SetCoefL1n _ _ | SetCoefLnn _
  | SetOmegaL11 _ _ _ | SetOmegaLn1 _ _ | SetOmegaL1n _ _ | SetOmegaLnn _
  | SetLtauL11 _ _ _ | SetLtauLn1 _ _ | SetLtauL1n _ _ | SetLtauLnn _
  | SetKAmpL1 _ _ _ | SetKAmpLn _ _ | SetKParL11 _ _ _ _ | SetKParL1n _ _ _ | SetKParLn1 _ _ _ | SetKParLnn _ _
  | UpdateVaried | Solution2 _ => true
  | _ => false
  end.
