(** Placing output optical depths in layers: src/xrtm_model.c:197-232 (update_utaus, the
    parts that run when the optical depths or the outputs have changed).  The delta-M
    scaling of the remainders (234-245) is not modelled here. *)
From Coq Require Import ZArith List Bool.
From Verif Require Import Dbl.
Import ListNotations.
Open Scope Z_scope.

(** 207-211: ttau[0] = 0, ttau[i+1] = ttau[i] + ltau0[i] *)
Fixpoint cumulate (a : dbl) (ls : list dbl) : list dbl :=
  match ls with [] => [a] | x :: l => a :: cumulate (dadd a x) l end.

(** 219: [for ( ; u >= ttau[ii]; ++ii) ;] on the entries from [ii] on.  [None]: the loop
    reads past the last entry of ttau. *)
Fixpoint search (u : dbl) (ii : nat) (l : list dbl) : option nat :=
  match l with
  | [] => None
  | t :: l' => if dge u t then search u (S ii) l' else Some ii
  end.

(** A layer index (may be -1) and the depth below its top. *)
Definition place : Type := Z * dbl.
(** 221-222; reading ttau[-1] is undefined *)
Definition put (tt : list dbl) (u : dbl) (ii : nat) : option place :=
  match ii with
  | O => None
  | S k => match nth_error tt k with Some t => Some (Z.of_nat k, dsub u t) | None => None end
  end.

(** 214-223; outer [None] = undefined behaviour, inner [None] = entry not stored (after the
    break).  [total] is ttau[n_layers]. *)
Fixpoint first_pass (tt : list dbl) (total : dbl) (us : list dbl) (ii : nat) : option (list (option place)) :=
  match us with
  | [] => Some []
  | u :: us' =>
      if deq u total then Some (map (fun _ => None) us)
      else match search u ii (skipn ii tt) with
           | None => None
           | Some ii => match put tt u ii with
                        | None => None
                        | Some p => match first_pass tt total us' ii with
                                    | None => None
                                    | Some r => Some (Some p :: r)
                                    end
                        end
           end
  end.
(** 225-231 *)
Fixpoint second_pass (tt : list dbl) (total : dbl) (us : list dbl) (r : list (option place)) : option (list (option place)) :=
  match us, r with
  | u :: us', p :: r' =>
      match (if deq u total then match put tt u (length tt - 1) with Some q => Some (Some q) | None => None end else Some p),
            second_pass tt total us' r' with
      | Some q, Some r => Some (q :: r)
      | _, _ => None
      end
  | _, _ => Some []
  end.
(** 207-232; [last]: ttau[n_layers] *)
Definition place_outputs (us ls : list dbl) : option (list (option place)) :=
  let tt := cumulate d_zero ls in
  let total := last tt d_zero in
  match first_pass tt total us 0 with
  | None => None
  | Some r => second_pass tt total us r
  end.
