(** The calls and the loops over the layers. *)
From Coq Require Import Reals Bool Arith Lia Lra List ZArith.
From Verif Require Import Base DerivsModel DerivsSpec DerivsProofs DeltaMSpec DeltaMProofs BeamProofs AddingModel AddingSpec AddingMat AddingJoin AddingDeriv AddingLin.
Open Scope R_scope.

(** The loop over the derivatives *)
Lemma each_ok : forall nd f d, (forall i, (i < nd)%nat -> exists x, f i (d i) = Ok x) -> exists d',
  each nd f d = Ok d' /\ (forall i, (i < nd)%nat -> f i (d i) = Ok (d' i)) /\ forall i, (nd <= i)%nat -> d' i = d i.
Proof.
  induction nd as [|nd IH]; intros f d H.
  - exists d. split; [reflexivity|]. split; [intros; lia|reflexivity].
  - destruct (IH f d) as (d1 & E & K & L). { intros i Hi. apply H. lia. }
    unfold each in *. cbn [loop]. rewrite E. destruct (H nd (Nat.lt_succ_diag_r _)) as [x X].
    rewrite (L nd (le_n _)), X. eexists. split; [reflexivity|]. split.
    + intros i Hi. destruct (Nat.eqb_spec i nd) as [->|N]; [exact X|]. apply K. lia.
    + intros i Hi. destruct (Nat.eqb_spec i nd) as [->|N]; [lia|]. apply L. lia.
Qed.

Lemma codes_are : forall v a b c e, codes v (a = true) (b = true) (c = true) (e = true) -> v = code a b c e.
Proof.
  intros v a b c e (R & H3 & H2 & H1 & H0).
  assert (forall x y : bool, (x = true <-> y = true) -> x = y) as B by (intros [] [] [X Y]; auto; try (symmetry; apply X; reflexivity); apply Y; reflexivity).
  apply B in H3, H2, H1, H0. subst.
  assert (List.In v (List.map Z.of_nat (seq 0 16))) as I.
  { apply in_map_iff. exists (Z.to_nat v). split; [apply Z2Nat.id; lia|apply in_seq; lia]. }
  cbn in I. repeat (destruct I as [<-|I]; [reflexivity|]). destruct I.
Qed.
Lemma codes_iff : forall v A B C D A' B' C' D', (A <-> A') -> (B <-> B') -> (C <-> C') -> (D <-> D') -> codes v A B C D -> codes v A' B' C' D'.
Proof. unfold codes. intros. tauto. Qed.
Lemma some_iff : forall i f, some i f = true <-> exists k, (k < i)%nat /\ f k = true.
Proof.
  intros. unfold some. rewrite existsb_exists. split; intros (k & A & B); exists k; (split; [|exact B]).
  - apply in_seq in A. lia.
  - apply in_seq. lia.
Qed.
Lemma some_S : forall i f, some (S i) f = some i f || f i.
Proof. intros. unfold some. rewrite seq_S, existsb_app. cbn. rewrite orb_false_r. reflexivity. Qed.

Section Calls.
Variable n : nat.
Variable solve : mat -> mat -> mat.
Hypothesis Solve : solver n solve.
Notation join := (join n solve).
Notation join_face := (join_face n solve).
Notation lin_step := (lin_step n solve).
Notation ref_step := (ref_step n solve).

Lemma layer_eta : forall l : layer, {| Rm := Rm l; Tm := Tm l; Sm := Sm l; Rp := Rp l; Tp := Tp l; Sp := Sp l |} = l.
Proof. intros []. reflexivity. Qed.
Lemma face_eta : forall f : face, {| fR := fR f; fS := fS f |} = f.
Proof. intros []. reflexivity. Qed.

(** layer_add_all with the results over the first layer *)
Lemma add_all_ok : forall nd cs a b x y, (forall j, (j < nd)%nat -> exists z, lin_step (cs j) a b (x j) (y j) = Ok z) -> exists v d,
  layer_add_all n solve over_first nd 1 (fun _ => 0) cs true (slots a b) (fun j => slots (x j) (y j)) = Ok (v, d) /\
  pick U12 U21 v = join 1 a b /\ (forall j, (j < nd)%nat -> lin_step (cs j) a b (x j) (y j) = Ok (pick U12 U21 (d j))) /\
  forall j, (nd <= j)%nat -> pick U12 U21 (d j) = x j.
Proof.
  intros nd cs a b x y H.
  set (f1 := fun j => let '(A, B, C) := upwards n solve a b in
    up_deriv n solve over_first (cs j) (i_sub (mmul n (Rm b) (Rp a))) A B C (mmul n A (Rm b)) (slots a b) 1 0).
  set (f2 := fun j => let '(A, B, C) := downwards n solve a b in
    down_deriv n solve over_first (cs j) (i_sub (mmul n (Rp a) (Rm b))) A B C (mmul n A (Rp a)) (slots a b) 1 0).
  assert (forall j, lin_step (cs j) a b (x j) (y j) =
    match f1 j (slots (x j) (y j)) with Ok d => match f2 j d with Ok d => Ok (pick U12 U21 d) | Err e => Err e | UB => UB end
    | Err e => Err e | UB => UB end) as E by reflexivity.
  destruct (each_ok nd f1 (fun j => slots (x j) (y j))) as (d1 & E1 & K1 & L1).
  { intros j Hj. destruct (H j Hj) as [z Z]. rewrite E in Z. destruct (f1 j _) as [w| |]; try discriminate Z. eauto. }
  destruct (each_ok nd f2 d1) as (d2 & E2 & K2 & L2).
  { intros j Hj. destruct (H j Hj) as [z Z]. rewrite E, (K1 j Hj) in Z. destruct (f2 j _) as [w| |]; try discriminate Z. eauto. }
  eexists. exists d2. split; [|split; [|split]].
  - unfold layer_add_all. cbv zeta.
    match goal with |- context [each nd ?g ?d] => change (each nd g d) with (each nd f1 d) end.
    rewrite E1. cbn [andb side_eqb over_first].
    match goal with |- context [each nd ?g ?d] => change (each nd g d) with (each nd f2 d) end.
    rewrite E2. reflexivity.
  - reflexivity.
  - intros j Hj. rewrite E, (K1 j Hj), (K2 j Hj). reflexivity.
  - intros j Hj. rewrite (L2 j Hj), (L1 j Hj). destruct (x j). reflexivity.
Qed.

(** layer_add_ref with the results over the face *)
Lemma add_face_ok : forall nd flag l l_l cs x x_l, (forall j, (j < nd)%nat -> exists z, ref_step flag (cs j) l x (l_l j) (x_l j) = Ok z) ->
  exists y_l, add_face n solve nd flag l l_l cs x x_l = Ok (join_face l x, y_l) /\
  (forall j, (j < nd)%nat -> ref_step flag (cs j) l x (l_l j) (x_l j) = Ok (y_l j)) /\ forall j, (nd <= j)%nat -> y_l j = x_l j.
Proof.
  intros nd flag l l_l cs x x_l H.
  set (f := fun j => ref_deriv n solve over_second flag (cs j) (i_sub (mmul n (fR x) (Rp l))) (solve (i_sub (mmul n (fR x) (Rp l))) (Tp l))
    (mmul n (fR x) (Tm l)) (vadd (vscale 1 (fS x)) (mv n (fR x) (Sm l))) (face_slots l x) 1 0).
  assert (forall j, ref_step flag (cs j) l x (l_l j) (x_l j) =
    match f j (face_slots (l_l j) (x_l j)) with Ok d => Ok (get_face d) | Err e => Err e | UB => UB end) as E by reflexivity.
  destruct (each_ok nd f (fun j => face_slots (l_l j) (x_l j))) as (d & E1 & K & L).
  { intros j Hj. destruct (H j Hj) as [z Z]. rewrite E in Z. destruct (f j _) as [w| |]; try discriminate Z. eauto. }
  exists (fun j => get_face (d j)). split; [|split].
  - unfold add_face, layer_add_ref. cbv zeta.
    match goal with |- context [each nd ?g ?d] => change (each nd g d) with (each nd f (fun j => face_slots (l_l j) (x_l j))) end.
    rewrite E1. reflexivity.
  - intros j Hj. rewrite E, (K j Hj). reflexivity.
  - intros j Hj. rewrite (L j Hj). destruct (x_l j). reflexivity.
Qed.

(* ------------------------------------------------------------------------- *)
(** * Derivatives of families of layers *)
Lemma around_near : forall p P, around p P <-> near (fun h => P (p + h)).
Proof.
  intros p P. split; intros (e & E & H); exists e; (split; [exact E|]).
  - intros h Hh. apply H. replace (p + h - p) with h by ring. exact Hh.
  - intros t Ht. replace t with (p + (t - p)) by ring. apply H, Ht.
Qed.
Lemma around_and : forall p P Q, around p P -> around p Q -> around p (fun t => P t /\ Q t).
Proof. intros p P Q A B. apply around_near. apply near_and; apply around_near; assumption. Qed.
Lemma around_imp : forall p (P Q : R -> Prop), (forall t, P t -> Q t) -> around p P -> around p Q.
Proof. intros p P Q I (e & E & H). exists e. split; [exact E|]. intros t Ht. apply I, H, Ht. Qed.
Lemma around_true : forall p (P : R -> Prop), (forall t, P t) -> around p P.
Proof. intros p P H. exists 1. split; [lra|]. intros t _. apply H. Qed.

Lemma regular_around : forall f g p f' g', mderiv n f p f' -> mderiv n g p g' -> regular n (f p) (g p) -> around p (fun t => regular n (f t) (g t)).
Proof.
  intros f g p f' g' Df Dg (q & Q1 & Q2). apply around_near.
  pose proof (mderiv_i_sub n _ p _ (mderiv_mul n f g p f' g' Df Dg)) as M.
  destruct (gap_big n _ p _ M) as (k & K & B).
  refine (near_imp _ _ _ (near_and _ _ B (near_small (norm n q * k) ltac:(apply Rmult_le_pos; [apply norm_nonneg|exact K]) (/ 2) ltac:(lra)))).
  intros h [Bh Sh]. apply (close n (i_sub (mmul n (f p) (g p))) q); [apply product_meq; exact Q1|apply product_meq; exact Q2|].
  eapply Rle_trans; [apply Rmult_le_compat_l; [apply norm_nonneg|exact Bh]|]. lra.
Qed.
Lemma vderiv_ext : forall f p a b, veq n a b -> vderiv n f p a -> vderiv n f p b.
Proof. intros f p a b E D i Hi. rewrite <- (E i Hi). apply D, Hi. Qed.
Lemma lderiv_ext : forall F p x y, leq n x y -> lderiv n F p x -> lderiv n F p y.
Proof.
  intros F p x y (A1 & A2 & A3 & A4 & A5 & A6) (B1 & B2 & B3 & B4 & B5 & B6).
  refine (conj _ (conj _ (conj _ (conj _ (conj _ _)))));
    first [eapply mderiv_ext; [|eassumption]; assumption|eapply vderiv_ext; [|eassumption]; assumption].
Qed.
Lemma fderiv_ext : forall F p x y, feq n x y -> fderiv n F p x -> fderiv n F p y.
Proof. intros F p x y [A B] [C D]. split; [eapply mderiv_ext; eassumption|eapply vderiv_ext; eassumption]. Qed.
Lemma meq_sym' : forall a b, meq n a b -> meq n b a.
Proof. intros a b H i j Hi Hj. symmetry. apply H; assumption. Qed.
Lemma veq_sym' : forall a b, veq n a b -> veq n b a.
Proof. intros a b H i Hi. symmetry. apply H; assumption. Qed.
Lemma leq_sym : forall a b, leq n a b -> leq n b a.
Proof.
  intros a b (A1 & A2 & A3 & A4 & A5 & A6).
  refine (conj _ (conj _ (conj _ (conj _ (conj _ _))))); first [apply meq_sym'; assumption|apply veq_sym'; assumption].
Qed.
Lemma feq_sym : forall a b, feq n a b -> feq n b a.
Proof. intros a b [A B]. split; [apply meq_sym'|apply veq_sym']; assumption. Qed.

Lemma join_deriv' : forall F G p x y, regular n (Rm (G p)) (Rp (F p)) -> lderiv n F p x -> lderiv n G p y ->
  lderiv n (fun t => join 1 (F t) (G t)) p (djoin n solve (F p) (G p) x y).
Proof.
  intros F G p x y Rg DF DG. destruct (regular_inverse n _ _ Rg) as (q & P1 & P2).
  destruct (push_through n _ _ q P1 P2) as [Q1 Q2].
  exact (join_deriv n solve Solve F G p x y q _ DF DG P1 P2 Q1 Q2).
Qed.
Lemma deriv_const : forall c p, derivable_pt_lim (fun _ => c) p 0.
Proof. intros. apply derivable_pt_lim_const. Qed.
Lemma join_face_deriv : forall F G p x g, regular n (fR (G p)) (Rp (F p)) -> lderiv n F p x -> fderiv n G p g ->
  fderiv n (fun t => join_face (F t) (G t)) p (dface n solve (F p) (G p) x g).
Proof.
  intros F G p x g Rg DF [DR DS].
  assert (lderiv n (fun t => solid (G t)) p (solid g)) as DG.
  { refine (conj DR (conj _ (conj _ (conj _ (conj _ DS))))); first [intros i j _ _; exact (deriv_const 0 p)|intros i _; exact (deriv_const 0 p)]. }
  destruct (join_deriv' F (fun t => solid (G t)) p x (solid g) Rg DF DG) as (A & _ & _ & _ & _ & B). split; [exact A|exact B].
Qed.

(* ------------------------------------------------------------------------- *)
(** * All layers, downwards *)
Fixpoint chain (ls : nat -> layer) (m : nat) : layer :=
  match m with O => ls O | S k => join 1 (chain ls k) (ls m) end.
Lemma chain_stands : forall ls m, (forall k, (k < m)%nat -> regular n (Rm (ls (S k))) (Rp (chain ls k))) -> stands_for n m ls (chain ls m).
Proof.
  intros ls m. induction m as [|m IH]; intros H d u u0 dm; [reflexivity|].
  cbn [chain through].
  rewrite (joins_one _ _ _ _ (join_sound n solve Solve 1 (chain ls m) (ls (S m)) (H m (Nat.lt_succ_diag_r _))) d u u0 dm).
  unfold joined. split; intros (d2 & u2 & X & Y); exists d2, u2; (split; [|exact Y]); apply IH; try exact X; intros k Hk; apply H; lia.
Qed.
(** The condition of the theorems and the one on the computed operators *)
Lemma chain_regular : forall ls m, (forall k c, (k < m)%nat -> stands_for n k ls c -> regular n (Rm (ls (S k))) (Rp c)) ->
  forall k, (k < m)%nat -> regular n (Rm (ls (S k))) (Rp (chain ls k)).
Proof.
  intros ls m H k. induction k as [k IH] using lt_wf_ind. intros Hk. apply H; [exact Hk|]. apply chain_stands.
  intros k' Hk'. apply IH; lia.
Qed.

Lemma down_code_is : forall i v f g l s, codes v (exists k, (k < i)%nat /\ f k = true) (exists k, (k < i)%nat /\ g k = true) (l = true) (s = true) ->
  v = down_code (some i f) (some i g) l s.
Proof.
  intros i v f g l s H. rewrite down_code_eq. apply codes_are. eapply codes_iff; [| | | |exact H]; try reflexivity; symmetry; apply some_iff.
Qed.

Lemma flagged_leq_z : forall l s x y, leq n x y -> leq n (flagged l s x) (flagged l s y).
Proof.
  intros [] [] x y (A1 & A2 & A3 & A4 & A5 & A6); refine (conj _ (conj _ (conj _ (conj _ (conj _ _)))));
    cbn [flagged Rm Tm Sm Rp Tp Sp]; try assumption; intros i; intros; reflexivity.
Qed.

Section Down.
Variables (nd : nat) (ls : nat -> layer) (ls_l : nat -> nat -> layer) (cs : nat -> nat -> Z) (lv sv : nat -> nat -> bool) (m : nat).
Hypothesis Reg : forall k, (k < m)%nat -> regular n (Rm (ls (S k))) (Rp (chain ls k)).
Hypothesis Carry : forall i j, (i <= m)%nat -> (j < nd)%nat -> lv i j = true -> sv i j = true.
Hypothesis Codes : forall i j, (i <= m)%nat -> (j < nd)%nat ->
  cs i j = down_code (some i (fun k => lv k j)) (some i (fun k => sv k j)) (lv i j) (sv i j).
Hypothesis Seen : forall i j, (0 < i <= m)%nat -> (j < nd)%nat ->
  some i (fun k => sv k j) = true -> sv i j = false -> some (S i) (fun k => lv k j) = true.

Lemma some_carry : forall i j, (i <= S m)%nat -> (j < nd)%nat -> some i (fun k => lv k j) = true -> some i (fun k => sv k j) = true.
Proof. intros i j Hi Hj H. apply some_iff in H as (k & K & L). apply some_iff. exists k. split; [exact K|]. apply Carry; [lia|exact Hj|exact L]. Qed.
Lemma handled_here : forall i j, (0 < i <= m)%nat -> (j < nd)%nat ->
  handled (some i (fun k => lv k j)) (some i (fun k => sv k j)) (lv i j) (sv i j) = true.
Proof.
  intros i j Hi Hj. unfold handled.
  pose proof (some_carry i j ltac:(lia) Hj) as C1. pose proof (Carry i j ltac:(lia) Hj) as C2. pose proof (Seen i j Hi Hj) as C3.
  rewrite some_S in C3.
  destruct (some i (fun k => lv k j)), (some i (fun k => sv k j)), (lv i j), (sv i j); cbn in *; try reflexivity;
    try (specialize (C1 eq_refl); discriminate C1); try (specialize (C2 eq_refl); discriminate C2);
    specialize (C3 eq_refl eq_refl); discriminate C3.
Qed.
Lemma total_ok : forall x x_l k, (k <= m)%nat -> exists y_l,
  total_R_T_S n solve (S k) nd ls ls_l cs x x_l = Ok (chain ls k, y_l) /\
  (forall j, (nd <= j)%nat -> y_l j = x_l j) /\
  forall j (F : R -> nat -> layer) p, (j < nd)%nat -> (forall i, F p i = ls i) ->
    (forall i, (i <= m)%nat -> lderiv n (fun t => F t i) p (flagged (lv i j) (sv i j) (ls_l i j))) ->
    around p (fun t => forall i, (i < k)%nat -> regular n (Rm (F t (S i))) (Rp (chain (F t) i))) /\
    lderiv n (fun t => chain (F t) k) p (flagged (some (S k) (fun i => lv i j)) (some (S k) (fun i => sv i j)) (y_l j)).
Proof.
  intros x x_l k. induction k as [|k IH]; intros Hk.
  - eexists. split; [reflexivity|]. split.
    + intros j Hj. cbv beta. destruct (Nat.ltb_spec j nd); [lia|reflexivity].
    + intros j F p Hj E D. split; [apply around_true; intros; lia|].
      apply (lderiv_ext _ _ (flagged (lv 0%nat j) (sv 0%nat j) (ls_l 0%nat j))); [|apply D; lia].
      cbv beta. destruct (Nat.ltb_spec j nd) as [_|]; [|lia]. rewrite (Codes 0 j) by (lia || exact Hj).
      pose proof (Carry 0%nat j ltac:(lia) Hj) as C. rewrite !some_S. cbn [some seq existsb orb].
      destruct (lv 0%nat j), (sv 0%nat j); try (specialize (C eq_refl); discriminate C);
        (refine (conj _ (conj _ (conj _ (conj _ (conj _ _))))); intros i; intros; reflexivity).
  - destruct (IH ltac:(lia)) as (y_l & E & L & D). clear IH.
    assert (Rg : regular n (Rm (ls (S k))) (Rp (chain ls k))) by (apply Reg; lia).
    destruct (regular_inverse n _ _ Rg) as (q & P1 & P2). destruct (push_through n _ _ q P1 P2) as [Q1 Q2].
    assert (forall j, (j < nd)%nat -> exists z, lin_step (cs (S k) j) (chain ls k) (ls (S k)) (y_l j) (ls_l (S k) j) = Ok z /\
      leq n (flagged (some (S (S k)) (fun i => lv i j)) (some (S (S k)) (fun i => sv i j)) z)
        (djoin n solve (chain ls k) (ls (S k)) (flagged (some (S k) (fun i => lv i j)) (some (S k) (fun i => sv i j)) (y_l j))
           (flagged (lv (S k) j) (sv (S k) j) (ls_l (S k) j)))) as St.
    { intros j Hj. rewrite (Codes (S k) j) by (lia || exact Hj). rewrite (some_S (S k)), (some_S (S k) (fun i => sv i j)).
      exact (code_exact n solve Solve (chain ls k) (ls (S k)) (y_l j) (ls_l (S k) j) q _ P1 P2 Q1 Q2 _ _ _ _ (handled_here (S k) j ltac:(lia) Hj)). }
    destruct (add_all_ok nd (cs (S k)) (chain ls k) (ls (S k)) y_l (ls_l (S k))) as (v & d & Ev & V & Dj & Dn).
    { intros j Hj. destruct (St j Hj) as (z & Z & _). eauto. }
    exists (fun j => pick U12 U21 (d j)). split; [|split].
    + unfold total_R_T_S in *. change (loop (S (S k)) ?f ?s) with (f (S k) (loop (S k) f s)). rewrite E. unfold total_step.
      cbn [Nat.eqb]. unfold slots in Ev. rewrite Ev. rewrite V. reflexivity.
    + intros j Hj. rewrite (Dn j Hj). apply L, Hj.
    + intros j F p Hj EF DF. destruct (D j F p Hj EF DF) as [A Dc].
      assert (EC : chain (F p) k = chain ls k). { clear -EF. induction k as [|k IH]; cbn [chain]; rewrite EF; [|rewrite IH]; reflexivity. }
      pose proof (DF (S k) Hk) as DG.
      split.
      * pose proof (regular_around (fun t => Rm (F t (S k))) (fun t => Rp (chain (F t) k)) p _ _
          ltac:(destruct DG as (X & _); exact X) ltac:(destruct Dc as (_ & _ & _ & X & _); exact X)) as N.
        cbv beta in N. rewrite EF, EC in N. specialize (N Rg).
        eapply around_imp; [|apply (around_and _ _ _ A N)]. intros t [T1 T2] i Hi.
        destruct (Nat.eq_dec i k) as [->|Ni]; [exact T2|apply T1; lia].
      * destruct (St j Hj) as (z & Z & LZ). rewrite (Dj j Hj) in Z. injection Z as <-.
        apply (lderiv_ext _ _ _ _ (leq_sym _ _ LZ)). cbn [chain].
        pose proof (join_deriv' (fun t => chain (F t) k) (fun t => F t (S k)) p _ _ ltac:(cbv beta; rewrite EF, EC; exact Rg) Dc DG) as J.
        cbv beta in J. rewrite EF, EC in J. exact J.
Qed.
End Down.

(* ------------------------------------------------------------------------- *)
(** * From the surface upwards *)
Fixpoint stack (ls : nat -> layer) (f : face) (m k : nat) : face :=
  match m with O => f | S m => join_face (ls k) (stack ls f m (S k)) end.
Lemma stack_tops : forall ls f m k, (forall i, (i < m)%nat -> regular n (fR (stack ls f i (k + m - i))) (Rp (ls (k + m - S i)%nat))) ->
  tops n m ls f k (stack ls f m k).
Proof.
  intros ls f m. induction m as [|m IH]; intros k H d u; [reflexivity|]. cbn [stack AddingSpec.above].
  pose proof (H m (Nat.lt_succ_diag_r _)) as Rg.
  replace (k + S m - m)%nat with (S k) in Rg by lia. replace (k + S m - S m)%nat with k in Rg by lia.
  rewrite (join_face_sound n solve (ls k) (stack ls f m (S k)) Solve Rg d u).
  assert (tops n m ls f (S k) (stack ls f m (S k))) as T.
  { apply IH. intros i Hi. specialize (H i (Nat.lt_trans _ _ _ Hi (Nat.lt_succ_diag_r _))).
    replace (k + S m - i)%nat with (S k + m - i)%nat in H by lia. replace (k + S m - S i)%nat with (S k + m - S i)%nat in H by lia. exact H. }
  split; intros (d2 & u2 & X & Y); exists d2, u2; (split; [exact X|]); apply T; exact Y.
Qed.
Lemma stack_ext : forall ls ls' f m k, (forall i, ls i = ls' i) -> stack ls f m k = stack ls' f m k.
Proof. intros ls ls' f m. induction m as [|m IH]; intros k H; cbn [stack]; [reflexivity|]. rewrite H, (IH (S k) H). reflexivity. Qed.

(** Flags of the last m layers above number N and of number N *)
Definition lower (N m : nat) (f : nat -> bool) : bool := existsb f (seq (N - m) (S m)).
Lemma lower_S : forall N m f, (m < N)%nat -> lower N (S m) f = f (N - S m)%nat || lower N m f.
Proof. intros N m f H. unfold lower. cbn [seq existsb]. replace (S (N - S m)) with (N - m)%nat by lia. reflexivity. Qed.
Lemma lower_above : forall N m f, (m < N)%nat -> lower N m f = DerivsProofs.above (N - S m) N f.
Proof. intros N m f H. unfold lower, DerivsProofs.above. replace (S (N - S m)) with (N - m)%nat by lia. replace (N - (N - S m))%nat with (S m) by lia. reflexivity. Qed.
Lemma lower_carry : forall N m f g, (forall i, (i <= N)%nat -> f i = true -> g i = true) -> (m <= N)%nat -> lower N m f = true -> lower N m g = true.
Proof.
  intros N m f g C Hm H. unfold lower in *. apply existsb_exists in H as (k & K & L). apply existsb_exists. exists k.
  split; [exact K|]. apply in_seq in K. apply C; [lia|exact L].
Qed.

Section Up.
Variables (nd N : nat) (ls : nat -> layer) (ls_l : nat -> nat -> layer) (cs : nat -> nat -> Z) (lv sv : nat -> nat -> bool).
Variables (f : face) (f_l : nat -> face).
Hypothesis Reg : forall m, (m < N)%nat -> regular n (fR (stack ls f m (N - m))) (Rp (ls (N - S m)%nat)).
Hypothesis Carry : forall i j, (i <= N)%nat -> (j < nd)%nat -> lv i j = true -> sv i j = true.
Hypothesis Codes : forall i j, (i < N)%nat -> (j < nd)%nat ->
  cs i j = down_code (lv i j) (sv i j) (DerivsProofs.above i N (fun k => lv k j)) (DerivsProofs.above i N (fun k => sv k j)).
Let step := fun i (s : outcome (face * (nat -> face))) =>
  match s with Ok (x, x_l) => add_face n solve nd false (ls i) (ls_l i) (cs i) x x_l | Err e => Err e | UB => UB end.
Lemma up_ok : forall m, (m <= N)%nat -> exists y_l,
  loop_down N step (Ok (f, f_l)) = loop_down (N - m) step (Ok (stack ls f m (N - m), y_l)) /\
  (forall j, (nd <= j)%nat -> y_l j = f_l j) /\
  forall j (F : R -> nat -> layer) (G : R -> face) p, (j < nd)%nat -> (forall i, F p i = ls i) -> G p = f ->
    (forall i, (i < N)%nat -> lderiv n (fun t => F t i) p (flagged (lv i j) (sv i j) (ls_l i j))) ->
    fderiv n G p (flagged_face (lv N j) (sv N j) (f_l j)) ->
    around p (fun t => forall i, (i < m)%nat -> regular n (fR (stack (F t) (G t) i (N - i))) (Rp (F t (N - S i)%nat))) /\
    fderiv n (fun t => stack (F t) (G t) m (N - m)) p (flagged_face (lower N m (fun i => lv i j)) (lower N m (fun i => sv i j)) (y_l j)).
Proof.
  intros m. induction m as [|m IH]; intros Hm.
  - exists f_l. rewrite Nat.sub_0_r. split; [reflexivity|]. split; [reflexivity|].
    intros j F G p Hj EF EG DF DG. split; [apply around_true; intros; lia|]. cbn [stack]. unfold lower. rewrite Nat.sub_0_r. cbn [seq existsb].
    rewrite !orb_false_r. exact DG.
  - destruct (IH ltac:(lia)) as (y_l & E & L & D). clear IH.
    set (k := (N - S m)%nat). replace (N - m)%nat with (S k) in * by (unfold k; lia).
    assert (Rg : regular n (fR (stack ls f m (S k))) (Rp (ls k))).
    { pose proof (Reg m ltac:(lia)) as X. replace (N - m)%nat with (S k) in X by (unfold k; lia). exact X. }
    destruct (regular_inverse n _ _ Rg) as (q & P1 & P2).
    assert (forall j, (j < nd)%nat -> exists z, ref_step false (cs k j) (ls k) (stack ls f m (S k)) (ls_l k j) (y_l j) = Ok z /\
      feq n (flagged_face (lower N (S m) (fun i => lv i j)) (lower N (S m) (fun i => sv i j)) z)
        (dface n solve (ls k) (stack ls f m (S k)) (flagged (lv k j) (sv k j) (ls_l k j))
           (flagged_face (lower N m (fun i => lv i j)) (lower N m (fun i => sv i j)) (y_l j)))) as St.
    { intros j Hj. rewrite (Codes k j ltac:(unfold k; lia) Hj). rewrite !lower_S by lia. rewrite !lower_above by lia. fold k.
      apply (ref_code_exact n solve Solve (ls k) (stack ls f m (S k)) (ls_l k j) (y_l j) q P1 P2 false).
      - pose proof (Carry k j ltac:(unfold k; lia) Hj) as C. unfold carried. destruct (lv k j), (sv k j); auto.
      - pose proof (lower_carry N m (fun i => lv i j) (fun i => sv i j) ltac:(intros; apply Carry; auto; lia) ltac:(lia)) as C.
        rewrite !lower_above in C by lia. fold k in C. unfold carried. destruct (DerivsProofs.above k N (fun i => lv i j)), (DerivsProofs.above k N (fun i => sv i j)); auto. }
    destruct (add_face_ok nd false (ls k) (ls_l k) (cs k) (stack ls f m (S k)) y_l) as (w_l & Ew & Wj & Wn).
    { intros j Hj. destruct (St j Hj) as (z & Z & _). eauto. }
    exists w_l. split; [|split].
    + rewrite E, loop_down_S. f_equal. exact Ew.
    + intros j Hj. rewrite (Wn j Hj). apply L, Hj.
    + intros j F G p Hj EF EG DF DG. destruct (D j F G p Hj EF EG DF DG) as [A Dc].
      assert (EC : stack (F p) (G p) m (S k) = stack ls f m (S k)). { rewrite EG. apply stack_ext, EF. }
      pose proof (DF k ltac:(unfold k; lia)) as Dk.
      split.
      * pose proof (regular_around (fun t => fR (stack (F t) (G t) m (S k))) (fun t => Rp (F t k)) p _ _
          ltac:(destruct Dc as (X & _); exact X) ltac:(destruct Dk as (_ & _ & _ & X & _); exact X)) as Nr.
        cbv beta in Nr. rewrite EF, EC in Nr. specialize (Nr Rg).
        eapply around_imp; [|apply (around_and _ _ _ A Nr)]. intros t [T1 T2] i Hi.
        destruct (Nat.eq_dec i m) as [->|Ni]; [|apply T1; lia].
        replace (N - m)%nat with (S k) by (unfold k; lia). exact T2.
      * destruct (St j Hj) as (z & Z & LZ). rewrite (Wj j Hj) in Z. injection Z as <-.
        apply (fderiv_ext _ _ _ _ (feq_sym _ _ LZ)). cbn [stack].
        pose proof (join_face_deriv (fun t => F t k) (fun t => stack (F t) (G t) m (S k)) p _ _ ltac:(cbv beta; rewrite EF, EC; exact Rg) Dk Dc) as J.
        cbv beta in J. rewrite EF, EC in J. exact J.
Qed.
End Up.

Lemma stack_regular : forall ls f N, (forall k c, (k < N)%nat -> tops n (N - S k) ls f (S k) c -> regular n (fR c) (Rp (ls k))) ->
  forall m, (m < N)%nat -> regular n (fR (stack ls f m (N - m))) (Rp (ls (N - S m)%nat)).
Proof.
  intros ls f N H m. induction m as [m IH] using lt_wf_ind. intros Hm. apply H; [lia|].
  replace (N - S (N - S m))%nat with m by lia. replace (S (N - S m)) with (N - m)%nat by lia.
  apply stack_tops. intros i Hi. replace (N - m + m - i)%nat with (N - i)%nat by lia. replace (N - m + m - S i)%nat with (N - S i)%nat by lia.
  apply IH; lia.
Qed.

(* ------------------------------------------------------------------------- *)
(** * From the top downwards, seen from below *)
Definition bottom_face (l : layer) : face := {| fR := Rp l; fS := Sm l |}.
Definition top_face (l : layer) : face := {| fR := Rm l; fS := Sp l |}.
Fixpoint hung (ls : nat -> layer) (m : nat) : face :=
  match m with O => bottom_face (ls O) | S k => join_face (flip (ls m)) (hung ls k) end.
Lemma interacts_flip : forall l d1 u2 u1 d2, interacts n (flip l) u2 d1 d2 u1 <-> interacts n l d1 u2 u1 d2.
Proof.
  intros l d1 u2 u1 d2. split; intros H i Hi; destruct (H i Hi) as [X Y]; cbn [flip Rm Tm Sm Rp Tp Sp] in *; split; lra.
Qed.
Lemma bottom_face_is : forall l up down, reflects n (bottom_face l) up down <-> exists up0, interacts n l zvec up up0 down.
Proof.
  intros l up down. split.
  - intros H. exists (out_up n l zvec up). intros i Hi. specialize (H i Hi). cbn [bottom_face fR fS] in H.
    split; [reflexivity|]. rewrite dot_zero. lra.
  - intros (u0 & H) i Hi. destruct (H i Hi) as [_ X]. rewrite dot_zero in X. cbn [bottom_face fR fS]. lra.
Qed.
Lemma top_face_is : forall l down up, reflects n (top_face l) down up <-> exists downm, interacts n l down zvec up downm.
Proof.
  intros l down up. split.
  - intros H. exists (out_down n l down zvec). intros i Hi. specialize (H i Hi). cbn [top_face fR fS] in H.
    split; [|reflexivity]. rewrite dot_zero. lra.
  - intros (u0 & H) i Hi. destruct (H i Hi) as [X _]. rewrite dot_zero in X. cbn [top_face fR fS]. lra.
Qed.
Lemma hung_bottom : forall ls m, (forall k, (k < m)%nat -> regular n (fR (hung ls k)) (Rm (ls (S k)))) -> bottom_of n m ls (hung ls m).
Proof.
  intros ls m. induction m as [|m IH]; intros H up down; [apply bottom_face_is|]. cbn [hung through].
  rewrite (join_face_sound n solve (flip (ls (S m))) (hung ls m) Solve (H m (Nat.lt_succ_diag_r _)) up down).
  assert (bottom_of n m ls (hung ls m)) as B by (apply IH; intros; apply H; lia).
  split.
  - intros (d2 & u2 & X & Y). apply B in Y as (u0 & Y). exists u0, u2, d2. split; [exact Y|]. apply interacts_flip. exact X.
  - intros (u0 & d & u & X & Y). exists u, d. split; [apply interacts_flip; exact Y|]. apply B. exists u0. exact X.
Qed.
Lemma hung_regular : forall ls m, (forall k c, (k < m)%nat -> bottom_of n k ls c -> regular n (fR c) (Rm (ls (S k)))) ->
  forall k, (k < m)%nat -> regular n (fR (hung ls k)) (Rm (ls (S k))).
Proof.
  intros ls m H k. induction k as [k IH] using lt_wf_ind. intros Hk. apply H; [exact Hk|]. apply hung_bottom.
  intros i Hi. apply IH; lia.
Qed.
Lemma flip_deriv : forall F p x, lderiv n F p x -> lderiv n (fun t => flip (F t)) p (flip x).
Proof. intros F p x (A1 & A2 & A3 & A4 & A5 & A6). exact (conj A4 (conj A5 (conj A6 (conj A1 (conj A2 A3))))). Qed.

Section Boa.
Variables (nd m : nat) (ls : nat -> layer) (ls_l : nat -> nat -> layer) (cs : nat -> nat -> Z) (lv sv : nat -> nat -> bool).
Hypothesis Reg : forall k, (k < m)%nat -> regular n (fR (hung ls k)) (Rm (ls (S k))).
Hypothesis Carry : forall i j, (i <= m)%nat -> (j < nd)%nat -> lv i j = true -> sv i j = true.
Hypothesis Codes : forall i j, (i <= m)%nat -> (j < nd)%nat ->
  cs i j = down_code (some i (fun k => lv k j)) (some i (fun k => sv k j)) (lv i j) (sv i j).
Lemma boa_ok : forall x x_l k, (k <= m)%nat -> exists y_l,
  boa n solve (S k) nd ls ls_l lv sv cs x x_l = Ok (hung ls k, y_l) /\
  (forall j, (nd <= j)%nat -> y_l j = x_l j) /\
  forall j (F : R -> nat -> layer) p, (j < nd)%nat -> (forall i, F p i = ls i) ->
    (forall i, (i <= m)%nat -> lderiv n (fun t => F t i) p (flagged (lv i j) (sv i j) (ls_l i j))) ->
    around p (fun t => forall i, (i < k)%nat -> regular n (fR (hung (F t) i)) (Rm (F t (S i)))) /\
    fderiv n (fun t => hung (F t) k) p (flagged_face (some (S k) (fun i => lv i j)) (some (S k) (fun i => sv i j)) (y_l j)).
Proof.
  intros x x_l k. induction k as [|k IH]; intros Hk.
  - eexists. split; [reflexivity|]. split.
    + intros j Hj. cbv beta. destruct (Nat.ltb_spec j nd); [lia|reflexivity].
    + intros j F p Hj E D. split; [apply around_true; intros; lia|]. cbv beta. destruct (Nat.ltb_spec j nd) as [_|]; [|lia].
      destruct (D 0%nat ltac:(lia)) as (_ & _ & D3 & D4 & _). rewrite !some_S. cbn [some seq existsb orb].
      split; cbn [hung bottom_face fR fS flagged_face copy_ref_l] in *.
      * eapply mderiv_ext; [|exact D4]. cbn [flagged Rp]. destruct (lv 0%nat j); intros a b _ _; reflexivity.
      * eapply vderiv_ext; [|exact D3]. cbn [flagged Sm]. destruct (sv 0%nat j); intros a _; reflexivity.
  - destruct (IH ltac:(lia)) as (y_l & E & L & D). clear IH.
    assert (Rg : regular n (fR (hung ls k)) (Rp (flip (ls (S k))))) by (apply Reg; lia).
    destruct (regular_inverse n _ _ Rg) as (q & P1 & P2).
    assert (forall j, (j < nd)%nat -> exists z, ref_step true (cs (S k) j) (flip (ls (S k))) (hung ls k) (flip (ls_l (S k) j)) (y_l j) = Ok z /\
      feq n (flagged_face (some (S (S k)) (fun i => lv i j)) (some (S (S k)) (fun i => sv i j)) z)
        (dface n solve (flip (ls (S k))) (hung ls k) (flip (flagged (lv (S k) j) (sv (S k) j) (ls_l (S k) j)))
           (flagged_face (some (S k) (fun i => lv i j)) (some (S k) (fun i => sv i j)) (y_l j)))) as St.
    { intros j Hj. rewrite (Codes (S k) j) by (lia || exact Hj). rewrite (some_S (S k)), (some_S (S k) (fun i => sv i j)), (orb_comm _ (lv (S k) j)), (orb_comm _ (sv (S k) j)).
      apply (ref_code_exact n solve Solve (flip (ls (S k))) (hung ls k) (flip (ls_l (S k) j)) (y_l j) q P1 P2 true (lv (S k) j) (sv (S k) j)).
      - pose proof (Carry (S k) j ltac:(lia) Hj) as C. unfold carried. destruct (lv (S k) j), (sv (S k) j); auto.
      - unfold carried. destruct (some (S k) (fun i => lv i j)) eqn:H1; [|reflexivity].
        apply some_iff in H1 as (i & Hi & Li). cbn [negb orb]. apply some_iff. exists i. split; [exact Hi|]. apply Carry; [lia|exact Hj|exact Li]. }
    destruct (add_face_ok nd true (flip (ls (S k))) (fun j => flip (ls_l (S k) j)) (cs (S k)) (hung ls k) y_l) as (w_l & Ew & Wj & Wn).
    { intros j Hj. destruct (St j Hj) as (z & Z & _). eauto. }
    exists w_l. split; [|split].
    + unfold boa in *. change (loop (S (S k)) ?f ?s) with (f (S k) (loop (S k) f s)). rewrite E. unfold boa_step. cbn [Nat.eqb]. exact Ew.
    + intros j Hj. rewrite (Wn j Hj). apply L, Hj.
    + intros j F p Hj EF DF. destruct (D j F p Hj EF DF) as [A Dc].
      assert (EC : hung (F p) k = hung ls k). { clear -EF. induction k as [|k IH]; cbn [hung]; rewrite EF; [|rewrite IH]; reflexivity. }
      pose proof (flip_deriv _ _ _ (DF (S k) Hk)) as DG.
      split.
      * pose proof (regular_around (fun t => fR (hung (F t) k)) (fun t => Rp (flip (F t (S k)))) p _ _
          ltac:(destruct Dc as (X & _); exact X) ltac:(destruct DG as (_ & _ & _ & X & _); exact X)) as Nr.
        cbv beta in Nr. rewrite EF, EC in Nr. specialize (Nr Rg).
        eapply around_imp; [|apply (around_and _ _ _ A Nr)]. intros t [T1 T2] i Hi.
        destruct (Nat.eq_dec i k) as [->|Ni]; [exact T2|apply T1; lia].
      * destruct (St j Hj) as (z & Z & LZ). rewrite (Wj j Hj) in Z. injection Z as <-.
        apply (fderiv_ext _ _ _ _ (feq_sym _ _ LZ)). cbn [hung].
        pose proof (join_face_deriv (fun t => flip (F t (S k))) (fun t => hung (F t) k) p _ _ ltac:(cbv beta; rewrite EF, EC; exact Rg) DG Dc) as J.
        cbv beta in J. rewrite EF, EC in J. exact J.
Qed.
End Boa.

(* ------------------------------------------------------------------------- *)
(** * Upwards without a surface *)
Lemma loop_down_ext : forall A m (g h : nat -> A -> A) s, (forall i s, (i < m)%nat -> g i s = h i s) -> loop_down m g s = loop_down m h s.
Proof.
  intros A m. induction m as [|m IH]; intros g h s H; [reflexivity|]. rewrite !loop_down_S. rewrite H by lia.
  apply IH. intros. apply H. lia.
Qed.
Lemma toa_is : forall m nd ls ls_l lv sv cs x x_l, toa n solve (S m) nd ls ls_l lv sv cs x x_l =
  toa_surface n solve m nd ls ls_l cs (top_face (ls m))
    (fun j => if Nat.ltb j nd then copy_ref_l (lv m j) (sv m j) (x_l j) {| fR := Rm (ls_l m j); fS := Sp (ls_l m j) |} else x_l j).
Proof.
  intros. unfold toa, toa_surface. rewrite loop_down_S. unfold toa_step at 2. replace (S m - 1)%nat with m by lia. rewrite Nat.eqb_refl.
  apply loop_down_ext. intros i s Hi. unfold toa_step. replace (S m - 1)%nat with m by lia.
  destruct (Nat.eqb_spec i m); [lia|reflexivity].
Qed.
Lemma through_cons : forall m ls d u u0 dm, through n (S m) ls d u u0 dm <->
  exists d1 u1, interacts n (ls 0%nat) d u1 u0 d1 /\ through n m (fun i => ls (S i)) d1 u u1 dm.
Proof.
  induction m as [|m IH]; intros ls d u u0 dm; [reflexivity|].
  change (through n (S (S m)) ls d u u0 dm) with (exists d2 u2, through n (S m) ls d u2 u0 d2 /\ interacts n (ls (S (S m))) d2 u u2 dm).
  split.
  - intros (d2 & u2 & X & Y). apply IH in X as (d1 & u1 & X & Z). exists d1, u1. split; [exact X|]. exists d2, u2. split; assumption.
  - intros (d1 & u1 & X & (d2 & u2 & Y & Z)). exists d2, u2. split; [|exact Z]. apply IH. exists d1, u1. split; assumption.
Qed.
Lemma above_shift : forall m ls f d u k, AddingSpec.above n m ls f d u (S k) <-> AddingSpec.above n m (fun i => ls (S i)) f d u k.
Proof.
  induction m as [|m IH]; intros ls f d u k; [reflexivity|]. cbn [AddingSpec.above].
  split; intros (d2 & u2 & X & Y); exists d2, u2; (split; [exact X|]); apply (IH ls f d2 u2 (S k)); exact Y.
Qed.
Lemma above_through : forall m ls d u, AddingSpec.above n m ls (top_face (ls m)) d u 0 <-> exists dm, through n m ls d zvec u dm.
Proof.
  induction m as [|m IH]; intros ls d u; [apply top_face_is|]. cbn [AddingSpec.above].
  assert (forall d2 u2, AddingSpec.above n m ls (top_face (ls (S m))) d2 u2 1 <-> exists dm, through n m (fun i => ls (S i)) d2 zvec u2 dm) as K.
  { intros d2 u2. rewrite above_shift. apply (IH (fun i => ls (S i)) d2 u2). }
  split.
  - intros (d2 & u2 & X & Y). apply K in Y as (dm & Y). exists dm. apply through_cons. exists d2, u2. split; assumption.
  - intros (dm & X). apply through_cons in X as (d1 & u1 & X & Y). exists d1, u1. split; [exact X|]. apply K. exists dm. exact Y.
Qed.
End Calls.
