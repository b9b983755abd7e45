(** The light of a stack of layers is what the operators of the layers say. *)
From Coq Require Import Reals Bool Arith Lia Lra.
From Verif Require Import Base DeltaMSpec DeltaMProofs BeamProofs AddingModel AddingSpec AddingMat AddingDeriv RadianceModel RadianceSpec RadianceProofs SingleProofs
  EigModel EigSpec EigMat EigCore EigProofs EigEnergy EigLayer EigProperties AtmSpec AtmProofs.
Open Scope R_scope.

Lemma between_less : forall n m solar thermal xs t Ip Im, between n (S m) solar thermal xs t Ip Im -> between n m solar thermal xs t Ip Im.
Proof. intros n m solar thermal xs t Ip Im (A & B & C). refine (conj _ (conj _ C)); intros; [apply A; lia|apply B; lia || assumption]. Qed.

Section Light.
Variable n : nat.
Variables (solar thermal : bool).
Variable xs : nat -> slab.
Variable ls : nat -> layer.
Notation between m t Ip Im := (between n m solar thermal xs t Ip Im).
Notation L k := (ltau (xs k)).
Lemma through_between : forall m, (forall k, (k <= m)%nat -> forall d1 u2 u1 d2, interacts n (ls k) d1 u2 u1 d2 <-> exists Ip Im, lit n solar thermal (xs k) Ip Im /\ ends n (L k) Ip Im d1 u2 u1 d2) ->
  forall d u u0 dm, through n m ls d u u0 dm <-> exists Ip Im, between m d Ip Im /\ forall i, (i < n)%nat -> Ip 0%nat i 0 = u0 i /\ Ip m i (L m) = u i /\ Im m i (L m) = dm i.
Proof.
  induction m as [|m IH]; intros Ex d u u0 dm.
  - cbn [through]. rewrite (Ex 0%nat ltac:(lia)). split.
    + intros (Ip & Im & T & E). exists (fun _ => Ip), (fun _ => Im). split.
      * refine (conj _ (conj _ _)); [|intros; lia|].
        -- intros k Hk. assert (k = 0%nat) as -> by lia. exact T.
        -- intros i Hi. apply E. exact Hi.
      * intros i Hi. destruct (E i Hi) as (E1 & E2 & E3 & E4). tauto.
    + intros (Ip & Im & (A & _ & C) & E). exists (Ip 0%nat), (Im 0%nat). split; [apply A; lia|]. intros i Hi. destruct (E i Hi) as (E1 & E2 & E3). pose proof (C i Hi). tauto.
  - cbn [through]. specialize (IH (fun k Hk => Ex k ltac:(lia))). split.
    + intros (a & b & H1 & H2). apply IH in H1. destruct H1 as (Ip & Im & (A & B & C) & E). apply (Ex (S m) ltac:(lia)) in H2. destruct H2 as (Jp & Jm & T & F).
      exists (fun k => if Nat.eqb k (S m) then Jp else Ip k), (fun k => if Nat.eqb k (S m) then Jm else Im k). split.
      * refine (conj _ (conj _ _)).
        -- intros k Hk. destruct (Nat.eqb_spec k (S m)) as [->|N]; [exact T|apply A; lia].
        -- intros k i Hk Hi. destruct (Nat.eqb_spec k (S m)) as [|_]; [lia|]. destruct (Nat.eqb_spec (S k) (S m)) as [K|N].
           ++ assert (k = m) as -> by lia. destruct (E i Hi) as (_ & E2 & E3). destruct (F i Hi) as (F1 & _ & F3 & _). rewrite F1, F3, E2, E3. split; reflexivity.
           ++ apply B; [lia|exact Hi].
        -- intros i Hi. cbn [Nat.eqb]. apply C. exact Hi.
      * intros i Hi. rewrite Nat.eqb_refl. cbn [Nat.eqb]. destruct (E i Hi) as (E1 & _). destruct (F i Hi) as (_ & F2 & _ & F4). tauto.
    + intros (Ip & Im & Bt & E). exists (fun i => Im m i (L m)), (fun i => Ip m i (L m)). split.
      * apply IH. exists Ip, Im. split; [exact (between_less _ _ _ _ _ _ _ _ Bt)|]. intros i Hi. destruct (E i Hi) as (E1 & _). tauto.
      * apply (Ex (S m) ltac:(lia)). exists (Ip (S m)), (Im (S m)). destruct Bt as (A & B & C). split; [apply A; lia|].
        intros i Hi. destruct (E i Hi) as (E1 & E2 & E3). destruct (B m i ltac:(lia) Hi) as (B1 & B2). rewrite B2. tauto.
Qed.
Variable g : vec.
Hypothesis Gp : forall i, (i < n)%nat -> 0 <= g i.
Lemma interior : forall m, (forall k, (k <= S m)%nat -> absorbing n g (ls k)) -> forall d u u0 dm a b d' u' u0' dm' a' b', veq n d d' -> veq n u u' ->
  through n m ls d b u0 a -> interacts n (ls (S m)) a u b dm -> through n m ls d' b' u0' a' -> interacts n (ls (S m)) a' u' b' dm' -> veq n b b' /\ veq n a a'.
Proof.
  intros m Ab d u u0 dm a b d' u' u0' dm' a' b' Vd Vu H1 H2 H1' H2'.
  destruct (through_below n g Gp ls m (fun k Hk => Ab k ltac:(lia)) _ _ _ _ _ _ _ _ H1 H1' Vd) as (T1 & T2).
  destruct (Ab (S m) ltac:(lia) _ _ _ _ _ _ _ _ H2 H2') as (P & Q & _). rewrite (minus_same n g Gp u u' Vu) in P.
  pose proof (power_pos n g Gp (minus dm dm')). destruct (dark_dec n g Gp (minus b b')) as [D|D].
  - specialize (T1 D). split; [|exact T1]. apply (proj1 (Q Vu)). intros i Hi _. unfold minus. rewrite (T1 i Hi). ring.
  - specialize (T2 D). lra.
Qed.
Lemma between_unique : forall m, (forall k, (k <= m)%nat -> absorbing n g (ls k)) ->
  (forall k, (k <= m)%nat -> forall d1 u2 u1 d2, interacts n (ls k) d1 u2 u1 d2 <-> exists Ip Im, lit n solar thermal (xs k) Ip Im /\ ends n (L k) Ip Im d1 u2 u1 d2) ->
  (forall k, (k <= m)%nat -> forall Ip Im Ip' Im', lit n solar thermal (xs k) Ip Im -> lit n solar thermal (xs k) Ip' Im' ->
     (forall i, (i < n)%nat -> Im i 0 = Im' i 0 /\ Ip i (L k) = Ip' i (L k)) -> forall i s, (i < n)%nat -> 0 <= s <= L k -> Ip i s = Ip' i s /\ Im i s = Im' i s) ->
  forall t Ip Im Ip' Im', between m t Ip Im -> between m t Ip' Im' -> (forall i, (i < n)%nat -> Ip m i (L m) = Ip' m i (L m)) -> same_light n m xs Ip Im Ip' Im'.
Proof.
  induction m as [|m IH]; intros Ab Ex Un t Ip Im Ip' Im' Bt Bt' V.
  - intros k i s Hk. assert (k = 0%nat) as -> by lia. destruct Bt as (A & _ & C). destruct Bt' as (A' & _ & C').
    apply (Un 0%nat ltac:(lia) (Ip 0%nat) (Im 0%nat)); [apply A; lia|apply A'; lia|]. intros q Hq. split; [rewrite C, C' by exact Hq; reflexivity|apply V; exact Hq].
  - assert (forall Ip Im, between (S m) t Ip Im -> through n m ls t (fun i => Ip m i (L m)) (fun i => Ip 0%nat i 0) (fun i => Im m i (L m)) /\
      interacts n (ls (S m)) (fun i => Im m i (L m)) (fun i => Ip (S m) i (L (S m))) (fun i => Ip m i (L m)) (fun i => Im (S m) i (L (S m)))) as Sp.
    { intros Jp Jm B. split.
      - apply (through_between m (fun k Hk => Ex k ltac:(lia))). exists Jp, Jm. split; [exact (between_less _ _ _ _ _ _ _ _ B)|]. intros i Hi. tauto.
      - apply (Ex (S m) ltac:(lia)). destruct B as (A & C & _). exists (Jp (S m)), (Jm (S m)). split; [apply A; lia|].
        intros i Hi. destruct (C m i ltac:(lia) Hi) as (C1 & C2). rewrite C2. tauto. }
    destruct (Sp _ _ Bt) as (H1 & H2). destruct (Sp _ _ Bt') as (H1' & H2').
    destruct (interior m Ab _ _ _ _ _ _ _ _ _ _ _ _ (fun i Hi => eq_refl) V H1 H2 H1' H2') as (Vb & Va).
    assert (same_light n m xs Ip Im Ip' Im') as Low.
    { apply (IH (fun k Hk => Ab k ltac:(lia)) (fun k Hk => Ex k ltac:(lia)) (fun k Hk => Un k ltac:(lia)) t); try (eapply between_less; eassumption). exact Vb. }
    intros k i s Hk Hi Hs. destruct (Nat.eq_dec k (S m)) as [->|N]; [|apply Low; try assumption; lia].
    destruct Bt as (A & B & _). destruct Bt' as (A' & B' & _).
    apply (Un (S m) ltac:(lia) (Ip (S m)) (Im (S m))); [apply A; lia|apply A'; lia| |exact Hi|exact Hs].
    intros q Hq. split; [|apply V; exact Hq]. destruct (B m q ltac:(lia) Hq) as (B1 & _). destruct (B' m q ltac:(lia) Hq) as (B1' & _). rewrite B1, B1'. apply Va. exact Hq.
Qed.
Lemma bottom_unique : forall m Rs b t u0 dm um u0' dm' um', (forall k, (k <= m)%nat -> absorbing n g (ls k)) -> (forall v, power n g (mv n Rs v) <= power n g v) ->
  field n m ls {| fR := Rs; fS := b |} t u0 dm um -> field n m ls {| fR := Rs; fS := b |} t u0' dm' um' -> veq n um um' /\ veq n dm dm'.
Proof.
  intros m Rs b t u0 dm um u0' dm' um' Ab Ps (H1 & H2) (H1' & H2').
  destruct (through_below n g Gp ls m Ab _ _ _ _ _ _ _ _ H1 H1' (fun i Hi => eq_refl)) as (T1 & T2).
  assert (passive_face n g {| fR := Rs; fS := b |}) as P by (apply (passive_mv n g); exact Ps). specialize (P _ _ _ _ H2 H2').
  destruct (dark_dec n g Gp (minus um um')) as [D|D]; [|specialize (T2 D); lra]. specialize (T1 D). split; [|exact T1].
  intros i Hi. rewrite (H2 i Hi), (H2' i Hi). f_equal. cbn [fR]. unfold dot. apply total_ext. intros k Hk. rewrite (T1 k Hk). reflexivity.
Qed.
End Light.
