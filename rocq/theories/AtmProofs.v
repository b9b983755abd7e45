(** Layers that absorb: every matrix that adding inverts is nonsingular. *)
From Coq Require Import Reals Bool Arith Lia Lra.
From Verif Require Import Base DeltaMSpec DeltaMProofs BeamProofs AddingModel AddingSpec AddingMat AddingDeriv RadianceModel RadianceSpec RadianceProofs SingleProofs
  EigModel EigSpec EigMat EigCore EigProofs EigEnergy EigLayer EigProperties AtmSpec.
Open Scope R_scope.

Section Power.
Variable n : nat.
Variable g : vec.
Hypothesis Gp : forall i, (i < n)%nat -> 0 <= g i.
Notation power := (power n g).
Notation dark := (dark n g).
Lemma power_pos : forall v, 0 <= power v.
Proof. intros v. apply total_nonneg. intros i Hi. apply Rmult_le_pos; [exact (Gp i Hi)|apply Rle_0_sqr]. Qed.
Lemma power_ext : forall u v, (forall i, (i < n)%nat -> u i = v i) -> power u = power v.
Proof. intros u v H. apply total_ext. intros i Hi. rewrite (H i Hi). reflexivity. Qed.
Lemma dark_power : forall v, dark v -> power v = 0.
Proof.
  intros v D. apply total_zero. intros i Hi. destruct (Req_dec (g i) 0) as [Z|Z]; [rewrite Z; ring|]. pose proof (Gp i Hi). rewrite (D i Hi ltac:(lra)). ring.
Qed.
Lemma power_dark : forall v, power v <= 0 -> dark v.
Proof.
  intros v P i Hi G. assert (g i * (v i * v i) = 0) as Z.
  { apply (total_pos_zero n (fun i => g i * (v i * v i))); [|exact P|exact Hi]. intros k Hk. apply Rmult_le_pos; [exact (Gp k Hk)|apply Rle_0_sqr]. }
  apply Rmult_integral in Z. destruct Z as [Z|Z]; [lra|]. apply Rmult_integral in Z. lra.
Qed.
Lemma dark_dec : forall v, dark v \/ ~ dark v.
Proof. intros v. destruct (Rle_dec (power v) 0) as [P|P]; [left; apply power_dark; exact P|right]. intros D. rewrite (dark_power v D) in P. lra. Qed.
Lemma dark_ext : forall u v, (forall i, (i < n)%nat -> u i = v i) -> dark u -> dark v.
Proof. intros u v H D i Hi G. rewrite <- (H i Hi). apply D; assumption. Qed.
Lemma minus_same : forall u v, veq n u v -> power (minus u v) = 0.
Proof. intros u v H. apply dark_power. intros i Hi _. unfold minus. rewrite (H i Hi). ring. Qed.

(** One of two reflectors loses light *)
Lemma regular_second : forall a b, (forall v, power (mv n a v) <= power v) -> (forall v, dark v -> forall i, (i < n)%nat -> mv n b v i = 0) ->
  (forall v, ~ dark v -> power (mv n b v) < power v) -> regular n a b.
Proof.
  intros a b A B0 B1. unfold regular. apply injective_nonsingular. intros v H.
  assert (forall i, (i < n)%nat -> v i = mv n a (mv n b v) i) as F.
  { intros i Hi. specialize (H i Hi). rewrite mv_mul. 
    change (mv n (less ident (mmul n a b)) v i = 0) in H. rewrite mv_less, (mv_ident n v i Hi) in H. lra. }
  destruct (dark_dec v) as [D|D].
  - intros i Hi. rewrite (F i Hi). apply mv_zero. apply B0. exact D.
  - pose proof (A (mv n b v)) as P. pose proof (B1 v D) as Q. rewrite <- (power_ext v _ F) in P. lra.
Qed.
Lemma regular_first : forall a b, (forall v, power (mv n b v) <= power v) -> (forall v, dark v -> forall i, (i < n)%nat -> mv n a v i = 0) ->
  (forall v, ~ dark v -> power (mv n a v) < power v) -> regular n a b.
Proof.
  intros a b B A0 A1. unfold regular. apply injective_nonsingular. intros v H.
  assert (forall i, (i < n)%nat -> v i = mv n a (mv n b v) i) as F.
  { intros i Hi. specialize (H i Hi). rewrite mv_mul.
    change (mv n (less ident (mmul n a b)) v i = 0) in H. rewrite mv_less, (mv_ident n v i Hi) in H. lra. }
  destruct (dark_dec (mv n b v)) as [D|D].
  - intros i Hi. rewrite (F i Hi). apply A0; assumption.
  - pose proof (B v) as P. pose proof (A1 _ D) as Q. rewrite <- (power_ext v _ F) in Q. lra.
Qed.

(** A layer reflects *)
Definition loses (a : mat) : Prop := (forall v, dark v -> forall i, (i < n)%nat -> mv n a v i = 0) /\ (forall v, ~ dark v -> power (mv n a v) < power v).
Lemma loses_le : forall a, loses a -> forall v, power (mv n a v) <= power v.
Proof.
  intros a (L0 & L1) v. destruct (dark_dec v) as [D|D]; [|left; apply L1; exact D].
  rewrite (dark_power v D). right. apply dark_power. intros i Hi _. apply L0; assumption.
Qed.
Lemma dot_zvec : forall a i, dot n a i zvec = 0.
Proof. intros. unfold dot. apply total_zero. intros. unfold zvec. ring. Qed.
Lemma absorbing_down : forall l, absorbing n g l -> loses (Rm l).
Proof.
  intros l A.
  assert (forall v, veq n (minus (fun i => dot n (Rm l) i v + dot n (Tp l) i zvec + Sp l i) (fun i => dot n (Rm l) i zvec + dot n (Tp l) i zvec + Sp l i)) (mv n (Rm l) v)) as E.
  { intros v i Hi. unfold minus. rewrite !dot_zvec. unfold dot, mv. ring. }
  assert (forall v, veq n (minus v zvec) v) as E0 by (intros v i _; unfold minus, zvec; ring).
  assert (forall v, interacts n l v zvec (fun i => dot n (Rm l) i v + dot n (Tp l) i zvec + Sp l i) (fun i => dot n (Tm l) i v + dot n (Rp l) i zvec + Sm l i)) as X.
  { intros v i Hi. split; reflexivity. }
  split; intros v D; destruct (A _ _ _ _ _ _ _ _ (X v) (X zvec)) as (_ & (P1 & P2) & _); try (intros i Hi; reflexivity).
  - intros i Hi. rewrite <- (E v i Hi). unfold minus. rewrite (P1 (dark_ext _ _ (fun i Hi => eq_sym (E0 v i Hi)) D) i Hi). ring.
  - rewrite <- (power_ext _ _ (E v)), <- (power_ext _ _ (E0 v)). apply P2. intros D'. apply D. exact (dark_ext _ _ (E0 v) D').
Qed.
Lemma absorbing_up : forall l, absorbing n g l -> loses (Rp l).
Proof.
  intros l A.
  assert (forall v, veq n (minus (fun i => dot n (Tm l) i zvec + dot n (Rp l) i v + Sm l i) (fun i => dot n (Tm l) i zvec + dot n (Rp l) i zvec + Sm l i)) (mv n (Rp l) v)) as E.
  { intros v i Hi. unfold minus. rewrite !dot_zvec. unfold dot, mv. ring. }
  assert (forall v, veq n (minus v zvec) v) as E0 by (intros v i _; unfold minus, zvec; ring).
  assert (forall v, interacts n l zvec v (fun i => dot n (Rm l) i zvec + dot n (Tp l) i v + Sp l i) (fun i => dot n (Tm l) i zvec + dot n (Rp l) i v + Sm l i)) as X.
  { intros v i Hi. split; reflexivity. }
  split; intros v D; destruct (A _ _ _ _ _ _ _ _ (X v) (X zvec)) as (_ & _ & (P1 & P2)); try (intros i Hi; reflexivity).
  - intros i Hi. rewrite <- (E v i Hi). unfold minus. rewrite (P1 (dark_ext _ _ (fun i Hi => eq_sym (E0 v i Hi)) D) i Hi). ring.
  - rewrite <- (power_ext _ _ (E v)), <- (power_ext _ _ (E0 v)). apply P2. intros D'. apply D. exact (dark_ext _ _ (E0 v) D').
Qed.
Lemma passive_mv : forall f, passive_face n g f <-> forall v, power (mv n (fR f) v) <= power v.
Proof.
  intros f. split.
  - intros A v. specialize (A v (fun i => dot n (fR f) i v + fS f i) zvec (fun i => dot n (fR f) i zvec + fS f i) (fun i Hi => eq_refl) (fun i Hi => eq_refl)).
    rewrite (power_ext (mv n (fR f) v) (minus (fun i => dot n (fR f) i v + fS f i) (fun i => dot n (fR f) i zvec + fS f i))),
      (power_ext v (minus v zvec)); [exact A|intros; unfold minus, zvec; ring|]. intros i Hi. unfold minus. rewrite dot_zvec. unfold dot, mv. ring.
  - intros A d u d' u' H H'. rewrite (power_ext (minus u u') (mv n (fR f) (minus d d'))); [apply A|]. intros i Hi. unfold minus at 1. rewrite (H i Hi), (H' i Hi).
    unfold minus. rewrite mv_minus. unfold dot, mv. ring.
Qed.

(** Stacks of layers *)
Section Stack.
Variable ls : nat -> layer.
Lemma through_passive : forall m, (forall k, (k <= m)%nat -> absorbing n g (ls k)) -> forall d u u0 dm d' u' u0' dm', through n m ls d u u0 dm -> through n m ls d' u' u0' dm' ->
  power (minus u0 u0') + power (minus dm dm') <= power (minus d d') + power (minus u u').
Proof.
  induction m as [|m IH]; intros A d u u0 dm d' u' u0' dm' H H'.
  - exact (proj1 (A 0%nat ltac:(lia) _ _ _ _ _ _ _ _ H H')).
  - destruct H as (a & b & H1 & H2). destruct H' as (a' & b' & H1' & H2').
    pose proof (IH (fun k Hk => A k ltac:(lia)) _ _ _ _ _ _ _ _ H1 H1') as P. pose proof (proj1 (A (S m) ltac:(lia) _ _ _ _ _ _ _ _ H2 H2')) as Q. lra.
Qed.
Lemma through_below : forall m, (forall k, (k <= m)%nat -> absorbing n g (ls k)) -> forall d u u0 dm d' u' u0' dm', through n m ls d u u0 dm -> through n m ls d' u' u0' dm' -> veq n d d' ->
  (dark (minus u u') -> veq n dm dm') /\ (~ dark (minus u u') -> power (minus dm dm') < power (minus u u')).
Proof.
  induction m as [|m IH]; intros A d u u0 dm d' u' u0' dm' H H' V.
  - exact (proj2 (proj2 (A 0%nat ltac:(lia) _ _ _ _ _ _ _ _ H H')) V).
  - destruct H as (a & b & H1 & H2). destruct H' as (a' & b' & H1' & H2').
    destruct (IH (fun k Hk => A k ltac:(lia)) _ _ _ _ _ _ _ _ H1 H1' V) as (I1 & I2). 
    destruct (A (S m) ltac:(lia) _ _ _ _ _ _ _ _ H2 H2') as (P & _ & Q).
    destruct (dark_dec (minus b b')) as [D|D].
    + specialize (I1 D). exact (Q I1).
    + specialize (I2 D). pose proof (power_pos (minus dm dm')). split; intros Du; [|lra]. rewrite (dark_power _ Du) in P. lra.
Qed.
Lemma stack_loses : forall m c, (forall k, (k <= m)%nat -> absorbing n g (ls k)) -> stands_for n m ls c -> loses (Rp c).
Proof.
  intros m c A St.
  assert (forall v, veq n (minus (fun i => dot n (Tm c) i zvec + dot n (Rp c) i v + Sm c i) (fun i => dot n (Tm c) i zvec + dot n (Rp c) i zvec + Sm c i)) (mv n (Rp c) v)) as E.
  { intros v i Hi. unfold minus. rewrite !dot_zvec. unfold dot, mv. ring. }
  assert (forall v, veq n (minus v zvec) v) as E0 by (intros v i _; unfold minus, zvec; ring).
  assert (forall v, through n m ls zvec v (fun i => dot n (Rm c) i zvec + dot n (Tp c) i v + Sp c i) (fun i => dot n (Tm c) i zvec + dot n (Rp c) i v + Sm c i)) as X.
  { intros v. apply St. intros i Hi. split; reflexivity. }
  split; intros v D; destruct (through_below m A _ _ _ _ _ _ _ _ (X v) (X zvec) (fun i Hi => eq_refl)) as (P1 & P2).
  - intros i Hi. rewrite <- (E v i Hi). unfold minus. rewrite (P1 (dark_ext _ _ (fun i Hi => eq_sym (E0 v i Hi)) D) i Hi). ring.
  - rewrite <- (power_ext _ _ (E v)), <- (power_ext _ _ (E0 v)). apply P2. intros D'. apply D. exact (dark_ext _ _ (E0 v) D').
Qed.
Lemma bottom_loses : forall m c, (forall k, (k <= m)%nat -> absorbing n g (ls k)) -> bottom_of n m ls c -> loses (fR c).
Proof.
  intros m c A St.
  assert (forall v, veq n (minus (fun i => dot n (fR c) i v + fS c i) (fun i => dot n (fR c) i zvec + fS c i)) (mv n (fR c) v)) as E.
  { intros v i Hi. unfold minus. rewrite !dot_zvec. unfold dot, mv. ring. }
  assert (forall v, veq n (minus v zvec) v) as E0 by (intros v i _; unfold minus, zvec; ring).
  assert (forall v, exists u0, through n m ls zvec v u0 (fun i => dot n (fR c) i v + fS c i)) as X.
  { intros v. apply St. intros i Hi. reflexivity. }
  destruct (X zvec) as (u0 & X0).
  split; intros v D; destruct (X v) as (u1 & X1); destruct (through_below m A _ _ _ _ _ _ _ _ X1 X0 (fun i Hi => eq_refl)) as (P1 & P2).
  - intros i Hi. rewrite <- (E v i Hi). unfold minus. rewrite (P1 (dark_ext _ _ (fun i Hi => eq_sym (E0 v i Hi)) D) i Hi). ring.
  - rewrite <- (power_ext _ _ (E v)), <- (power_ext _ _ (E0 v)). apply P2. intros D'. apply D. exact (dark_ext _ _ (E0 v) D').
Qed.
Lemma above_passive : forall f, passive_face n g f -> forall m k, (forall q, (k <= q < k + m)%nat -> absorbing n g (ls q)) -> forall d u d' u', above n m ls f d u k -> above n m ls f d' u' k ->
  power (minus u u') <= power (minus d d').
Proof.
  intros f F. induction m as [|m IH]; intros k A d u d' u' H H'; [exact (F _ _ _ _ H H')|].
  destruct H as (a & b & H1 & H2). destruct H' as (a' & b' & H1' & H2').
  pose proof (IH (S k) (fun q Hq => A q ltac:(lia)) _ _ _ _ H2 H2') as P. pose proof (proj1 (A k ltac:(lia) _ _ _ _ _ _ _ _ H1 H1')) as Q. lra.
Qed.
Lemma tops_passive : forall f m k c, passive_face n g f -> (forall q, (k <= q < k + m)%nat -> absorbing n g (ls q)) -> tops n m ls f k c -> passive_face n g c.
Proof. intros f m k c F A T d u d' u' H H'. apply T in H, H'. exact (above_passive f F m k A _ _ _ _ H H'). Qed.

(** The matrices that adding inverts *)
Variable m : nat.
Hypothesis Ab : forall k, (k <= m)%nat -> absorbing n g (ls k).
Lemma pair_regular : forall k c, (k < m)%nat -> stands_for n k ls c -> regular n (Rm (ls (S k))) (Rp c).
Proof.
  intros k c Hk St. destruct (stack_loses k c (fun q Hq => Ab q ltac:(lia)) St) as (L0 & L1).
  exact (regular_second _ _ (loses_le _ (absorbing_down _ (Ab (S k) ltac:(lia)))) L0 L1).
Qed.
Lemma surface_regular : forall c Rs, (forall v, power (mv n Rs v) <= power v) -> stands_for n m ls c -> regular n (Rp c) Rs.
Proof. intros c Rs P St. destruct (stack_loses m c Ab St) as (L0 & L1). exact (regular_first _ _ P L0 L1). Qed.
Lemma down_regular : forall k c, (k < m)%nat -> bottom_of n k ls c -> regular n (fR c) (Rm (ls (S k))).
Proof.
  intros k c Hk St. destruct (bottom_loses k c (fun q Hq => Ab q ltac:(lia)) St) as (L0 & L1).
  exact (regular_first _ _ (loses_le _ (absorbing_down _ (Ab (S k) ltac:(lia)))) L0 L1).
Qed.
Lemma down_surface_regular : forall c Rs, (forall v, power (mv n Rs v) <= power v) -> bottom_of n m ls c -> regular n (fR c) Rs.
Proof. intros c Rs P St. destruct (bottom_loses m c Ab St) as (L0 & L1). exact (regular_first _ _ P L0 L1). Qed.
Lemma up_regular : forall k c Rs b, (k < S m)%nat -> (forall v, power (mv n Rs v) <= power v) -> tops n (S m - S k) ls {| fR := Rs; fS := b |} (S k) c -> regular n (fR c) (Rp (ls k)).
Proof.
  intros k c Rs b Hk P T. destruct (absorbing_up _ (Ab k ltac:(lia))) as (L0 & L1).
  apply regular_second; [|exact L0|exact L1]. apply passive_mv.
  apply (tops_passive {| fR := Rs; fS := b |} (S m - S k) (S k) c); [apply passive_mv; exact P| |exact T]. intros q Hq. apply Ab. lia.
Qed.
Lemma up_open_regular : forall k c, (k < m)%nat -> tops n (m - S k) ls {| fR := Rm (ls m); fS := Sp (ls m) |} (S k) c -> regular n (fR c) (Rp (ls k)).
Proof.
  intros k c Hk T. destruct (absorbing_up _ (Ab k ltac:(lia))) as (L0 & L1).
  apply regular_second; [|exact L0|exact L1]. apply passive_mv.
  apply (tops_passive {| fR := Rm (ls m); fS := Sp (ls m) |} (m - S k) (S k) c); [apply passive_mv; exact (loses_le _ (absorbing_down _ (Ab m ltac:(lia))))| |exact T]. intros q Hq. apply Ab. lia.
Qed.
End Stack.
End Power.

(** A layer of the eigenvalue solver absorbs. *)
Section Absorbs.
Variable n : nat.
Variable x : slab.
Notation cc := (factor x 1 * omega x).
Hypothesis Scat : scatters n (qx x) (qw x) cc (P_pp x) (P_mp x).
Hypothesis LP : 0 <= ltau x.
Variables (Dp Dm : beam).
Hypothesis Sys : sys n (local_t x) (local_r x) (fun _ _ => 0) (fun _ _ => 0) (ltau x) Dp Dm.
Notation g := (fun i => qw x i * qx x i).
Notation L := (ltau x).
Notation at0 F := (fun i : nat => F i 0).
Notation atL F := (fun i : nat => F i L).
Let Gp : forall i, (i < n)%nat -> 0 <= g i.
Proof. intros i Hi. destruct Scat as (S & _). destruct (S i Hi). apply Rmult_le_pos; lra. Qed.
Lemma energy_power : forall s, energy n x Dp Dm s = power n g (fun i => Dp i s) - power n g (fun i => Dm i s).
Proof. intros s. unfold energy, power. rewrite <- total_minus. apply total_ext. intros. ring. Qed.
Lemma balance : power n g (at0 Dp) + power n g (atL Dm) <= power n g (at0 Dm) + power n g (atL Dp).
Proof. pose proof (energy_grows n x Scat Dp Dm L 0 L Sys ltac:(lra) ltac:(lra)) as E. rewrite !energy_power in E. lra. Qed.
Lemma quiet : power n g (at0 Dm) <= power n g (at0 Dp) -> power n g (atL Dp) <= power n g (atL Dm) -> 0 < L ->
  forall s, 0 <= s <= L -> forall i, (i < n)%nat -> 0 < qw x i -> Dp i s = 0 /\ Dm i s = 0.
Proof.
  intros A B LP'. apply (dark_from_energy n x Scat Dp Dm L LP' Sys).
  intros s Hs. pose proof (energy_grows n x Scat Dp Dm L 0 s Sys ltac:(lra) ltac:(lra)) as E1. pose proof (energy_grows n x Scat Dp Dm L s L Sys ltac:(lra) ltac:(lra)) as E2.
  rewrite !(energy_power 0) in E1. rewrite (energy_power L) in E2. lra.
Qed.
Lemma g_w : forall i, (i < n)%nat -> 0 < g i -> 0 < qw x i.
Proof. intros i Hi G. destruct Scat as (S & _). destruct (S i Hi) as (M & W). cbv beta in G. destruct (Req_dec (qw x i) 0) as [Z|Z]; [rewrite Z in G; lra|lra]. Qed.
Lemma g_w' : forall i, (i < n)%nat -> 0 < qw x i -> 0 < g i.
Proof. intros i Hi G. destruct Scat as (S & _). destruct (S i Hi) as (M & W). cbv beta. apply Rmult_lt_0_compat; assumption. Qed.
Lemma from_above : (forall i, (i < n)%nat -> Dp i L = 0) ->
  (dark n g (at0 Dm) -> forall i, (i < n)%nat -> Dp i 0 = 0) /\ (~ dark n g (at0 Dm) -> power n g (at0 Dp) < power n g (at0 Dm)).
Proof.
  intros Z. assert (power n g (atL Dp) = 0) as ZL. { apply (dark_power n g Gp). intros i Hi _. apply Z. exact Hi. }
  pose proof balance as Ba. pose proof (power_pos n g Gp (at0 Dp)). pose proof (power_pos n g Gp (atL Dm)).
  destruct (Req_dec L 0) as [L0|L0].
  - assert (forall i, (i < n)%nat -> Dp i 0 = 0) as Z0. { intros i Hi. rewrite <- L0 at 1. apply Z. exact Hi. }
    split; [intros _; exact Z0|]. intros D. rewrite (dark_power n g Gp (at0 Dp)) by (intros i Hi _; apply Z0; exact Hi).
    pose proof (power_pos n g Gp (at0 Dm)). destruct (Rle_dec (power n g (at0 Dm)) 0) as [P|P]; [|lra]. elim D. exact (power_dark n g Gp _ P).
  - split; intros D.
    + rewrite (dark_power n g Gp _ D) in Ba.
      assert (forall s, 0 <= s <= L -> forall i, (i < n)%nat -> 0 < qw x i -> Dp i s = 0 /\ Dm i s = 0) as Q. { apply quiet; [rewrite (dark_power n g Gp _ D)| |]; lra. }
      intros i Hi. pose proof (fading n x Scat Dp Dm L Sys Q) as F.
      apply (same_solution (/ qx x i) (Dp i) (fun _ => 0) (fun _ => 0) 0 L ltac:(lra)).
      * intros q Hq. apply F; [exact Hi|lra].
      * intros q Hq. apply zero_solves.
      * apply Z. exact Hi.
    + destruct (Rlt_dec (power n g (at0 Dp)) (power n g (at0 Dm))) as [|N]; [assumption|]. elim D. intros i Hi G.
      apply (quiet ltac:(lra) ltac:(lra) ltac:(lra) 0 ltac:(lra) i Hi (g_w i Hi G)).
Qed.
Lemma from_below : (forall i, (i < n)%nat -> Dm i 0 = 0) ->
  (dark n g (atL Dp) -> forall i, (i < n)%nat -> Dm i L = 0) /\ (~ dark n g (atL Dp) -> power n g (atL Dm) < power n g (atL Dp)).
Proof.
  intros Z. assert (power n g (at0 Dm) = 0) as ZL. { apply (dark_power n g Gp). intros i Hi _. apply Z. exact Hi. }
  pose proof balance as Ba. pose proof (power_pos n g Gp (at0 Dp)). pose proof (power_pos n g Gp (atL Dm)).
  destruct (Req_dec L 0) as [L0|L0].
  - assert (forall i, (i < n)%nat -> Dm i L = 0) as Z0. { intros i Hi. rewrite L0. apply Z. exact Hi. }
    split; [intros _; exact Z0|]. intros D. rewrite (dark_power n g Gp (atL Dm)) by (intros i Hi _; apply Z0; exact Hi).
    pose proof (power_pos n g Gp (atL Dp)). destruct (Rle_dec (power n g (atL Dp)) 0) as [P|P]; [|lra]. elim D. exact (power_dark n g Gp _ P).
  - split; intros D.
    + rewrite (dark_power n g Gp _ D) in Ba.
      assert (forall s, 0 <= s <= L -> forall i, (i < n)%nat -> 0 < qw x i -> Dp i s = 0 /\ Dm i s = 0) as Q. { apply quiet; [|rewrite (dark_power n g Gp _ D)|]; lra. }
      intros i Hi. pose proof (fading n x Scat Dp Dm L Sys Q) as F.
      apply (same_solution (- / qx x i) (Dm i) (fun _ => 0) (fun _ => 0) 0 L ltac:(lra)).
      * intros q Hq. apply F; [exact Hi|lra].
      * intros q Hq. apply zero_solves.
      * apply Z. exact Hi.
    + destruct (Rlt_dec (power n g (atL Dm)) (power n g (atL Dp))) as [|N]; [assumption|]. elim D. intros i Hi G.
      apply (quiet ltac:(lra) ltac:(lra) ltac:(lra) L ltac:(lra) i Hi (g_w i Hi G)).
Qed.
End Absorbs.
Lemma light_absorbing : forall n solar thermal x lay, scatters n (qx x) (qw x) (factor x 1 * omega x) (P_pp x) (P_mp x) -> 0 <= ltau x ->
  (forall d1 u2 u1 d2, interacts n lay d1 u2 u1 d2 -> exists Ip Im, lit n solar thermal x Ip Im /\ ends n (ltau x) Ip Im d1 u2 u1 d2) ->
  absorbing n (fun i => qw x i * qx x i) lay.
Proof.
  intros n solar thermal x lay Sc LP Ex d1 u2 u1 d2 d1' u2' u1' d2' H H'.
  destruct (Ex _ _ _ _ H) as (Ip & Im & T & E). destruct (Ex _ _ _ _ H') as (Ip' & Im' & T' & E'). unfold lit in T, T'. rewrite <- factor_is in T, T'.
  assert (forall k, (k < n)%nat -> qx x k <> 0) as Q. { intros k Hk. destruct Sc as (P & _). destruct (P k Hk). lra. }
  apply (sys_transfers n x Q) in T. apply (sys_transfers n x Q) in T'.
  set (Dp := fun i s => Ip i s + - (1) * Ip' i s). set (Dm := fun i s => Im i s + - (1) * Im' i s).
  assert (sys n (local_t x) (local_r x) (fun _ _ => 0) (fun _ _ => 0) (ltau x) Dp Dm) as Sy.
  { eapply sys_ext; [apply sys_plus; [exact T|apply sys_scal; exact T']|]. intros; cbv beta; split; ring. }
  assert (forall i, (i < n)%nat -> Dm i 0 = minus d1 d1' i /\ Dp i (ltau x) = minus u2 u2' i /\ Dp i 0 = minus u1 u1' i /\ Dm i (ltau x) = minus d2 d2' i) as B.
  { intros i Hi. destruct (E i Hi) as (A1 & A2 & A3 & A4). destruct (E' i Hi) as (A1' & A2' & A3' & A4'). unfold Dp, Dm, minus. rewrite A1, A2, A3, A4, A1', A2', A3', A4'.
    refine (conj _ (conj _ (conj _ _))); ring. }
  set (g := fun i => qw x i * qx x i).
  assert (power n g (minus d1 d1') = power n g (fun i => Dm i 0)) as -> by (apply power_ext; intros i Hi; symmetry; apply B; exact Hi).
  assert (power n g (minus u2 u2') = power n g (fun i => Dp i (ltau x))) as -> by (apply power_ext; intros i Hi; symmetry; apply B; exact Hi).
  assert (power n g (minus u1 u1') = power n g (fun i => Dp i 0)) as -> by (apply power_ext; intros i Hi; symmetry; apply B; exact Hi).
  assert (power n g (minus d2 d2') = power n g (fun i => Dm i (ltau x))) as -> by (apply power_ext; intros i Hi; symmetry; apply B; exact Hi).
  refine (conj _ (conj _ _)).
  - exact (balance n x Sc LP Dp Dm Sy).
  - intros V. destruct (from_above n x Sc LP Dp Dm Sy) as (F1 & F2).
    { intros i Hi. rewrite (proj1 (proj2 (B i Hi))). unfold minus. rewrite (V i Hi). ring. }
    split.
    + intros D i Hi. assert (Dp i 0 = 0) as Z. { apply F1; [|exact Hi]. apply (dark_ext n g (minus d1 d1')); [|exact D]. intros k Hk. symmetry. apply B. exact Hk. }
      rewrite (proj1 (proj2 (proj2 (B i Hi)))) in Z. unfold minus in Z. lra.
    + intros D. apply F2. intros D'. apply D. apply (dark_ext n g (fun i => Dm i 0)); [|exact D']. intros k Hk. apply B. exact Hk.
  - intros V. destruct (from_below n x Sc LP Dp Dm Sy) as (F1 & F2).
    { intros i Hi. rewrite (proj1 (B i Hi)). unfold minus. rewrite (V i Hi). ring. }
    split.
    + intros D i Hi. assert (Dm i (ltau x) = 0) as Z. { apply F1; [|exact Hi]. apply (dark_ext n g (minus u2 u2')); [|exact D]. intros k Hk. symmetry. apply B. exact Hk. }
      rewrite (proj2 (proj2 (proj2 (B i Hi)))) in Z. unfold minus in Z. lra.
    + intros D. apply F2. intros D'. apply D. apply (dark_ext n g (fun i => Dp i (ltau x))); [|exact D']. intros k Hk. apply B. exact Hk.
Qed.
