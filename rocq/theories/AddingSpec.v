(** What adding layers means: the interaction principle, and derivatives of families of layers. *)
From Coq Require Import Reals Bool Arith ZArith List.
From Verif Require Import Base DeltaMSpec AddingModel.
Open Scope R_scope.

(** The arrays hold n by n entries. *)
Definition meq (n : nat) (a b : mat) : Prop := forall i j, (i < n)%nat -> (j < n)%nat -> a i j = b i j.
Definition veq (n : nat) (u v : vec) : Prop := forall i, (i < n)%nat -> u i = v i.
Definition ident : mat := fun i j => if Nat.eqb i j then 1 else 0.
(** Row times column *)
Definition dot (n : nat) (a : mat) (i : nat) (v : vec) : R := total n (fun k => a i k * v k).
(** a b = c, entry by entry *)
Definition product (n : nat) (a b c : mat) : Prop := forall i j, (i < n)%nat -> (j < n)%nat -> total n (fun k => a i k * b k j) = c i j.
Definition nonsingular (n : nat) (m : mat) : Prop := exists p, product n m p ident /\ product n p m ident.
(** LAPACK's contract for the pair dmat_getrf / dmat_getrs: x := x m^-1 when m is nonsingular, anything otherwise *)
Definition solver (n : nat) (solve : mat -> mat -> mat) : Prop := forall m x, nonsingular n m -> product n (solve m x) m x.
(** E - a b is nonsingular: the light going back and forth between two reflectors a and b sums up. *)
Definition regular (n : nat) (a b : mat) : Prop :=
  nonsingular n (fun i j => ident i j - total n (fun k => a i k * b k j)).

(** The interaction principle: [down1], [up2] fall on the layer from above and from below, [up1], [down2] leave it. *)
Definition interacts (n : nat) (l : layer) (down1 up2 up1 down2 : vec) : Prop :=
  forall i, (i < n)%nat ->
    up1 i = dot n (Rm l) i down1 + dot n (Tp l) i up2 + Sp l i /\
    down2 i = dot n (Tm l) i down1 + dot n (Rp l) i up2 + Sm l i.
(** Two layers with the radiances at their interface eliminated *)
Definition joined (n : nat) (a b : layer) (down1 up3 up1 down3 : vec) : Prop :=
  exists down2 up2, interacts n a down1 up2 up1 down2 /\ interacts n b down2 up3 up2 down3.
(** [c] is what the two layers together do. *)
Definition joins (n : nat) (a b c : layer) : Prop :=
  forall down1 up3 up1 down3, interacts n c down1 up3 up1 down3 <-> joined n a b down1 up3 up1 down3.
(** The layers 0 to m *)
Fixpoint through (n m : nat) (ls : nat -> layer) (down up up0 downm : vec) : Prop :=
  match m with
  | O => interacts n (ls O) down up up0 downm
  | S k => exists d u, through n k ls down u up0 d /\ interacts n (ls m) d up u downm
  end.
(** A reflecting face: [up] leaves it when [down] falls on it. *)
Definition reflects (n : nat) (f : face) (down up : vec) : Prop :=
  forall i, (i < n)%nat -> up i = dot n (fR f) i down + fS f i.
(** The layers k to n_layers - 1 above a face *)
Fixpoint above (n m : nat) (ls : nat -> layer) (f : face) (down up : vec) (k : nat) : Prop :=
  match m with
  | O => reflects n f down up
  | S m => exists d u, interacts n (ls k) down u up d /\ above n m ls f d u (S k)
  end.

Definition leq (n : nat) (a b : layer) : Prop :=
  meq n (Rm a) (Rm b) /\ meq n (Tm a) (Tm b) /\ veq n (Sm a) (Sm b) /\
  meq n (Rp a) (Rp b) /\ meq n (Tp a) (Tp b) /\ veq n (Sp a) (Sp b).
Definition feq (n : nat) (a b : face) : Prop := meq n (fR a) (fR b) /\ veq n (fS a) (fS b).

(** Derivatives, entry by entry *)
Definition mderiv (n : nat) (f : R -> mat) (p : R) (a : mat) : Prop :=
  forall i j, (i < n)%nat -> (j < n)%nat -> derivable_pt_lim (fun t => f t i j) p (a i j).
Definition vderiv (n : nat) (f : R -> vec) (p : R) (v : vec) : Prop :=
  forall i, (i < n)%nat -> derivable_pt_lim (fun t => f t i) p (v i).
Definition lderiv (n : nat) (f : R -> layer) (p : R) (x : layer) : Prop :=
  mderiv n (fun t => Rm (f t)) p (Rm x) /\ mderiv n (fun t => Tm (f t)) p (Tm x) /\ vderiv n (fun t => Sm (f t)) p (Sm x) /\
  mderiv n (fun t => Rp (f t)) p (Rp x) /\ mderiv n (fun t => Tp (f t)) p (Tp x) /\ vderiv n (fun t => Sp (f t)) p (Sp x).
Definition fderiv (n : nat) (f : R -> face) (p : R) (x : face) : Prop :=
  mderiv n (fun t => fR (f t)) p (fR x) /\ vderiv n (fun t => fS (f t)) p (fS x).
(** The derivative that the arrays [x] stand for when the flags say what varies: an array that is not flagged is never
    read and its derivative is zero. *)
Definition flagged (l s : bool) (x : layer) : layer :=
  {| Rm := if l then Rm x else zmat; Tm := if l then Tm x else zmat; Sm := if s then Sm x else zvec;
     Rp := if l then Rp x else zmat; Tp := if l then Tp x else zmat; Sp := if s then Sp x else zvec |}.
Definition flagged_face (l s : bool) (x : face) : face :=
  {| fR := if l then fR x else zmat; fS := if s then fS x else zvec |}.
(** Some of the layers before [i] *)
Definition some (i : nat) (f : nat -> bool) : bool := existsb f (seq 0 i).

(** [c] does what the layers 0 to m do together. *)
Definition stands_for (n m : nat) (ls : nat -> layer) (c : layer) : Prop :=
  forall down up up0 downm, interacts n c down up up0 downm <-> through n m ls down up up0 downm.
(** [c] reflects like the layers k, k + 1, ... (m of them) above the face [f]. *)
Definition tops (n m : nat) (ls : nat -> layer) (f : face) (k : nat) (c : face) : Prop :=
  forall down up, reflects n c down up <-> above n m ls f down up k.
(** Seen from below, with nothing falling on the top; seen from above, with nothing coming from below *)
Definition bottom_of (n m : nat) (ls : nat -> layer) (c : face) : Prop :=
  forall up down, reflects n c up down <-> exists up0, through n m ls zvec up up0 down.
Definition top_of (n m : nat) (ls : nat -> layer) (c : face) : Prop :=
  forall down up, reflects n c down up <-> exists downm, through n m ls down zvec up downm.
(** For all t near p *)
Definition around (p : R) (P : R -> Prop) : Prop := exists e, 0 < e /\ forall t, Rabs (t - p) < e -> P t.
