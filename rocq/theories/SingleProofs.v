From Coq Require Import Reals Lra Lia Bool Arith.
From Verif Require Import Base SingleModel SingleSpec DeltaMProofs BeamProofs.
Open Scope R_scope.

(** Two solutions of the same linear equation that agree somewhere agree everywhere *)
Lemma same_solution : forall k (f g J : R -> R) a b, a <= b ->
  (forall t, a <= t <= b -> derivable_pt_lim f t (k * f t + J t)) ->
  (forall t, a <= t <= b -> derivable_pt_lim g t (k * g t + J t)) ->
  (f a = g a <-> f b = g b).
Proof.
  intros k f g J a b AB HF HG.
  assert ((f a - g a) * exp (- (k * a)) = (f b - g b) * exp (- (k * b))) as E.
  { destruct AB as [AB|AB]; [|subst; reflexivity].
    destruct (MVT_cor2 (fun t => (f t - g t) * exp (- (k * t))) (fun _ => 0) a b AB) as (c & E & _); [|lra].
    intros t T. eapply dl_eq.
    - apply dl_mult; [apply dl_minus; [apply HF|apply HG]; exact T|].
      apply dl_exp_neg. apply (dl_mult (fun _ => k) (fun t => t)); [apply dl_const|apply derivable_pt_lim_id].
    - cbv beta. ring. }
  pose proof (exp_pos (- (k * a))). pose proof (exp_pos (- (k * b))).
  split; intros Q; rewrite Q in E.
  - replace (g a - g a) with 0 in E by ring. rewrite Rmult_0_l in E. symmetry in E. apply Rmult_integral in E. lra.
  - replace (g b - g b) with 0 in E by ring. rewrite Rmult_0_l in E. apply Rmult_integral in E. lra.
Qed.

Section Element.
Variables (x : lay) (dx : nat -> lay) (v : varied) (mu : R).
Notation upl := (up_layer x dx v mu).
Notation dnl := (dn_layer x dx v mu).

(** The field at level [n - k] going up, at level [k] going down *)
Fixpoint up_at (n k : nat) (I : elem) : elem := match k with O => I | S k => upl (n - S k) 0 (up_at n k I) end.
Fixpoint dn_at (k : nat) (I : elem) : elem := match k with O => I | S k => dnl k (lt x k) (dn_at k I) end.

Definition same (a b : elem) : Prop := val a = val b /\ forall j, der a j = der b j.
Lemma dn_zero : forall i I, same (dnl i 0 I) I.
Proof.
  intros i I. unfold same, dn_layer; cbn [val der].
  replace (exp (- 0 / mu)) with 1 by (replace (-0 / mu) with 0 by (unfold Rdiv; ring); symmetry; apply exp_0).
  replace (exp (- 0 * sl x i)) with 1 by (replace (-0 * sl x i) with 0 by ring; symmetry; apply exp_0).
  unfold Rdiv. split; [ring|]. intros j. destruct (v i j); ring.
Qed.

(** What is written at output [k] *)
Definition up_out (n : nat) (q : places) (I : elem) (k : nat) : elem :=
  if taus q then upl (ul q k) (ut q k) (up_at n (n - S (ul q k)) I) else up_at n (n - ul q k) I.
Definition dn_out (q : places) (I : elem) (k : nat) : elem :=
  if taus q then dnl (ul q k) (ut q k) (dn_at (ul q k) I) else dn_at (ul q k) I.

Section Up.
Variables (n : nat) (q : places) (I : elem).

Lemma mono : forall m (f : nat -> nat), (forall k, (S k < m)%nat -> (f k <= f (S k))%nat) -> forall a b, (a <= b)%nat -> (b < m)%nat -> (f a <= f b)%nat.
Proof.
  intros m f H a b AB. induction b; intros B.
  - replace a with 0%nat by lia. lia.
  - destruct (Nat.eq_dec a (S b)) as [->|]; [lia|]. specialize (H b B). assert (f a <= f b)%nat by (apply IHb; lia). lia.
Qed.

(** Invariant before layer [i - 1] is treated: the field is that at level [i]; the places from [p] on are written and lie at or below
    the level; those above are still to come *)
Definition up_inv (i : nat) (s : st) : Prop :=
  fld s = up_at n (n - i) I /\ (place s <= nu q)%nat /\
  (forall k, (k < nu q)%nat -> (place s <= k)%nat -> out s k = Some (up_out n q I k) /\ (i <= ul q k)%nat) /\
  (forall k, (k < place s)%nat -> (ul q k < i)%nat).

Lemma up_taus_inv : forall i p o, (i < n)%nat -> taus q = true -> (forall k, (k < p)%nat -> (ul q k <= i)%nat) ->
  (forall a b, (a <= b)%nat -> (b < nu q)%nat -> (ul q a <= ul q b)%nat) -> (p <= nu q)%nat ->
  (forall k, (k < nu q)%nat -> (p <= k)%nat -> o k = Some (up_out n q I k) /\ (i <= ul q k)%nat) ->
  let r := up_taus x dx v mu q i (up_at n (n - S i) I) p o in
  (fst r <= nu q)%nat /\ (forall k, (k < nu q)%nat -> (fst r <= k)%nat -> snd r k = Some (up_out n q I k) /\ (i <= ul q k)%nat) /\
  (forall k, (k < fst r)%nat -> (ul q k < i)%nat).
Proof.
  intros i p. induction p; intros o IN T H M P O; cbn [up_taus].
  - cbn. split; [lia|]. split; [exact O|]. intros; lia.
  - destruct (Nat.eqb_spec i (ul q p)) as [E|E].
    + apply IHp; [exact IN|exact T|intros; apply H; lia|exact M|lia|].
      intros k K PK. unfold put. destruct (Nat.eqb_spec k p) as [->|NE]; [|apply O; [exact K|lia]].
      split; [|lia]. f_equal. unfold up_out. rewrite T, <- E. reflexivity.
    + cbn. split; [exact P|]. split; [exact O|]. intros k K.
      pose proof (H p ltac:(lia)). pose proof (M k p ltac:(lia) ltac:(lia)). lia.
Qed.

Hypothesis ASK : asked n (nu q) (ul q) (taus q).
Lemma ask_mono : forall a b, (a <= b)%nat -> (b < nu q)%nat -> (ul q a <= ul q b)%nat.
Proof.
  apply mono. unfold asked in ASK. destruct (taus q); destruct ASK as (_ & _ & A); intros k K; specialize (A k K); lia.
Qed.
Lemma ask_pos : (0 < nu q)%nat. Proof. unfold asked in ASK. destruct (taus q); apply ASK. Qed.
Lemma ask_strict : taus q = false -> forall a b, (a < b)%nat -> (b < nu q)%nat -> (ul q a < ul q b)%nat.
Proof.
  intros T a b AB B. unfold asked in ASK. rewrite T in ASK. destruct ASK as (_ & _ & A).
  assert (ul q a < ul q (S a))%nat by (apply A; lia).
  enough (ul q (S a) <= ul q b)%nat by lia. apply (mono (nu q)); [|lia|lia]. intros k K. specialize (A k K). lia.
Qed.
Lemma ask_le : forall k, (k < nu q)%nat -> (ul q k <= n)%nat.
Proof. intros k K. unfold asked in ASK. destruct (taus q); destruct ASK as (_ & A & _); specialize (A k K); lia. Qed.

Lemma up_one_inv : forall i s, (i < n)%nat -> (ul q 0 <= i)%nat -> up_inv (S i) s ->
  exists s', up_one x dx v mu q i s = Some s' /\ up_inv i s'.
Proof.
  intros i s IN U0 (F & P & O & H). pose proof ask_mono as M. pose proof ask_pos as POS. pose proof ask_strict as ST.
  assert (upl i 0 (fld s) = up_at n (n - i) I) as NX.
  { rewrite F. replace (n - i)%nat with (S (n - S i)) by lia. cbn [up_at]. f_equal. lia. }
  unfold up_one. destruct (taus q) eqn:T.
  - destruct (up_taus_inv i (place s) (out s) IN T) as (A & B & C); auto; [intros k K; specialize (H k K); lia| |].
    { intros k K PK. destruct (O k K PK). split; [assumption|lia]. }
    cbv zeta. cbn [fld place out]. rewrite NX. rewrite <- F in A, B, C. eexists. split; [reflexivity|].
    refine (conj _ (conj _ (conj _ _))); cbn [fld place out]; auto.
  - destruct (place s) as [|m] eqn:PS.
    + destruct (O 0%nat POS ltac:(lia)). lia.
    + eexists. split; [reflexivity|]. rewrite NX. pose proof (H m ltac:(lia)).
      destruct (Nat.eqb_spec i (ul q m)) as [E|E]; refine (conj _ (conj _ (conj _ _))); cbn [fld place out]; auto; try lia.
      * intros k K MK. unfold put. destruct (Nat.eqb_spec k m) as [->|NE].
        -- split; [|lia]. f_equal. unfold up_out. rewrite T, <- E. reflexivity.
        -- destruct (O k K ltac:(lia)). split; [assumption|lia].
      * intros k K. specialize (ST eq_refl k m K ltac:(lia)). lia.
      * intros k K MK. destruct (O k K ltac:(lia)). split; [assumption|lia].
      * intros k K. pose proof (H k K). assert (k = m \/ k < m)%nat as [->|L] by lia; [lia|]. specialize (ST eq_refl k m L ltac:(lia)). lia.
Qed.

Lemma up_loop_inv : forall k s, (ul q 0 + k <= n)%nat -> up_inv (ul q 0 + k) s ->
  exists s', up_loop x dx v mu q (ul q 0) k s = Some s' /\ up_inv (ul q 0) s'.
Proof.
  induction k; intros s K V; cbn [up_loop].
  - exists s. rewrite Nat.add_0_r in V. auto.
  - destruct (up_one_inv (ul q 0 + k) s) as (s1 & E & V1); [lia|lia|rewrite Nat.add_succ_r in V; exact V|].
    rewrite E. apply IHk; [lia|exact V1].
Qed.

Lemma up_start_inv : up_inv n (up_start n q I).
Proof.
  pose proof ask_mono as M. pose proof ask_pos as POS. pose proof ask_strict as ST. pose proof ask_le as LE. pose proof ASK as A.
  unfold asked in A.
  unfold up_start. destruct (taus q) eqn:T.
  - destruct A as (_ & A & _). pose proof (A (nu q - 1)%nat ltac:(lia)).
    destruct (Nat.eqb_spec n (ul q (nu q - 1))); [lia|].
    refine (conj _ (conj _ (conj _ _))); cbn [fld place out]; [rewrite Nat.sub_diag; reflexivity|lia|intros; lia|auto].
  - destruct (Nat.eqb_spec n (ul q (nu q - 1))) as [E|E];
      refine (conj _ (conj _ (conj _ _))); cbn [fld place out]; try lia; try (rewrite Nat.sub_diag; reflexivity).
    + intros k K L. replace k with (nu q - 1)%nat by lia. unfold put. rewrite Nat.eqb_refl. split; [|lia].
      f_equal. unfold up_out. rewrite T, <- E, Nat.sub_diag. reflexivity.
    + intros k K. specialize (ST eq_refl k (nu q - 1)%nat ltac:(lia) ltac:(lia)). lia.
    + intros k K. pose proof (LE (nu q - 1)%nat ltac:(lia)). pose proof (M k (nu q - 1)%nat ltac:(lia) ltac:(lia)). lia.
Qed.

Lemma up_runs : exists s, up_loop x dx v mu q (ul q 0) (n - ul q 0) (up_start n q I) = Some s /\
  forall k, (k < nu q)%nat -> out s k = Some (up_out n q I k).
Proof.
  pose proof (ask_le 0%nat ask_pos) as LE.
  destruct (up_loop_inv (n - ul q 0) (up_start n q I)) as (s & E & (_ & _ & O & HH)); [lia| |].
  - replace (ul q 0 + (n - ul q 0))%nat with n by lia. apply up_start_inv.
  - exists s. split; [exact E|]. intros k K. apply O; [exact K|].
    destruct (place s) as [|m]; [lia|]. specialize (HH 0%nat ltac:(lia)). lia.
Qed.

(** ** Down.  Before layer [i]: the field is that at level [i]; the places before [p] are written, those from [p] on lie deeper. *)
Definition dn_good (k : nat) (o : option elem) : Prop := exists e, o = Some e /\ same e (dn_out q I k).
Definition dn_inv (i : nat) (s : st) : Prop :=
  fld s = dn_at i I /\ (place s <= nu q)%nat /\
  (forall k, (k < place s)%nat -> dn_good k (out s k) /\ (taus q = false -> (ul q k <= i)%nat)) /\
  (forall k, (place s <= k)%nat -> (k < nu q)%nat -> if taus q then (i <= ul q k)%nat else (i < ul q k)%nat).

Lemma same_refl : forall e, same e e. Proof. split; auto. Qed.
Lemma dn_taus_inv : forall i r p o, taus q = true -> (p + r = nu q)%nat ->
  (forall k, (p <= k)%nat -> (k < nu q)%nat -> (i <= ul q k)%nat) ->
  (forall k, (k < p)%nat -> dn_good k (o k)) ->
  let s := dn_taus x dx v mu q i (dn_at i I) r p o in
  (fst s <= nu q)%nat /\ (forall k, (k < fst s)%nat -> dn_good k (snd s k)) /\
  (forall k, (fst s <= k)%nat -> (k < nu q)%nat -> (S i <= ul q k)%nat).
Proof.
  intros i r. induction r; intros p o T PR H O; cbn [dn_taus].
  - cbn. split; [lia|]. split; [exact O|]. intros; lia.
  - destruct (Nat.eqb_spec i (ul q p)) as [E|E].
    + apply IHr; [exact T|lia|intros; apply H; lia|].
      intros k K. unfold put. destruct (Nat.eqb_spec k p) as [->|NE]; [|apply O; lia].
      eexists. split; [reflexivity|]. unfold dn_out. rewrite T, <- E. apply same_refl.
    + cbn. split; [lia|]. split; [exact O|]. intros k K L.
      pose proof (H p ltac:(lia) ltac:(lia)). pose proof (ask_mono p k ltac:(lia) ltac:(lia)). lia.
Qed.

Lemma dn_one_inv : forall i s, (i < ul q (nu q - 1))%nat \/ taus q = true -> dn_inv i s ->
  exists s', dn_one x dx v mu q i s = Some s' /\ dn_inv (i + 1) s'.
Proof.
  intros i s U0 (F & P & O & H). pose proof ask_mono as M. pose proof ask_pos as POS. pose proof ask_strict as ST.
  assert (dnl i (lt x i) (fld s) = dn_at (i + 1) I) as NX.
  { rewrite F, Nat.add_1_r. reflexivity. }
  pose proof (fun r p o => dn_taus_inv i r p o) as DT. unfold dn_one. unfold dn_inv. destruct (taus q) eqn:T.
  - destruct (DT (nu q - place s)%nat (place s) (out s) eq_refl) as (A & B & C); auto; [lia|intros k K; now destruct (O k K)|].
    cbv zeta. cbn [fld place out]. rewrite NX. rewrite <- F in A, B, C. eexists. split; [reflexivity|].
    refine (conj _ (conj _ (conj _ _))); cbn [fld place out]; auto; [|rewrite Nat.add_1_r; exact C].
    intros k K. split; [auto|discriminate].
  - destruct U0 as [U0|]; [|discriminate]. destruct (Nat.ltb_spec (place s) (nu q)) as [L|L].
    + eexists. split; [reflexivity|]. rewrite NX. pose proof (H (place s) ltac:(lia) L).
      destruct (Nat.eqb_spec (i + 1) (ul q (place s))) as [E|E]; refine (conj _ (conj _ (conj _ _))); cbn [fld place out]; auto; try lia.
      * intros k K. unfold put. destruct (Nat.eqb_spec k (place s)) as [->|NE].
        -- split; [|lia]. eexists. split; [reflexivity|]. unfold dn_out. rewrite T, <- E. apply same_refl.
        -- destruct (O k ltac:(lia)) as (A & B). split; [exact A|]. intros Z. specialize (B Z). lia.
      * intros k K KN. specialize (ST eq_refl (place s) k ltac:(lia) ltac:(lia)). lia.
      * intros k K. destruct (O k K) as (A & B). split; [exact A|]. intros Z. specialize (B Z). lia.
      * intros k K KN. pose proof (M (place s) k K KN). lia.
    + exfalso. destruct (O (nu q - 1)%nat ltac:(lia)) as (_ & B). specialize (B eq_refl). lia.
Qed.

Lemma dn_loop_inv : forall k i s, (i + k <= ul q (nu q - 1))%nat \/ taus q = true -> dn_inv i s ->
  exists s', dn_loop x dx v mu q i k s = Some s' /\ dn_inv (i + k) s'.
Proof.
  induction k; intros i s K V; cbn [dn_loop].
  - exists s. rewrite Nat.add_0_r. auto.
  - destruct (dn_one_inv i s) as (s1 & E & V1); [destruct K; [left; lia|auto]|exact V|].
    rewrite E. destruct (IHk (i + 1)%nat s1) as (s2 & E2 & V2); [destruct K; [left; lia|auto]|exact V1|].
    exists s2. split; [exact E2|]. replace (i + S k)%nat with (i + 1 + k)%nat by lia. exact V2.
Qed.

Lemma dn_start_inv : dn_inv 0 (dn_start q I).
Proof.
  pose proof ask_mono as M. pose proof ask_pos as POS. pose proof ask_strict as ST.
  unfold dn_start, dn_inv. destruct (taus q) eqn:T.
  - destruct (Nat.eqb_spec 0 (ul q 0)) as [E|E]; [destruct (Req_EM_T (ut q 0) 0) as [Z|Z]|];
      refine (conj _ (conj _ (conj _ _))); cbn [fld place out]; try reflexivity; try lia; try (intros; lia).
    + intros k K. replace k with 0%nat by lia. split; [|discriminate].
      exists I. split; [reflexivity|]. unfold dn_out. rewrite T, <- E, Z. cbn [dn_at].
      destruct (dn_zero 0 I) as (A & B). split; [symmetry; exact A|]. intros j. symmetry. apply B.
  - destruct (Nat.eqb_spec 0 (ul q 0)) as [E|E];
      refine (conj _ (conj _ (conj _ _))); cbn [fld place out]; try reflexivity; try lia.
    + intros k K. replace k with 0%nat by lia. split; [|lia].
      exists I. split; [reflexivity|]. unfold dn_out. rewrite T, <- E. apply same_refl.
    + intros k K L. specialize (ST eq_refl 0%nat k ltac:(lia) L). lia.
    + intros k K L. pose proof (M 0%nat k ltac:(lia) L). lia.
Qed.

Lemma dn_runs : exists s, dn_loop x dx v mu q 0 (dn_end q) (dn_start q I) = Some s /\
  forall k, (k < nu q)%nat -> dn_good k (out s k).
Proof.
  pose proof ask_mono as M. pose proof ask_pos as POS.
  destruct (dn_loop_inv (dn_end q) 0 (dn_start q I)) as (s & E & (_ & P & O & H)).
  - unfold dn_end. destruct (taus q); auto.
  - apply dn_start_inv.
  - exists s. split; [exact E|]. intros k K. apply O. destruct (Nat.le_gt_cases (nu q) (place s)) as [L|L]; [lia|].
    exfalso. specialize (H (nu q - 1)%nat ltac:(lia) ltac:(lia)). unfold dn_end in H. destruct (taus q); lia.
Qed.
End Up.

(** ** One layer solves the equation of transfer *)
Lemma dl_exp : forall g t a, derivable_pt_lim g t a -> derivable_pt_lim (fun s => exp (g s)) t (a * exp (g t)).
Proof. intros g t a H. eapply dl_eq; [exact (derivable_pt_lim_comp g exp t _ _ H (derivable_pt_lim_exp (g t)))|ring]. Qed.
Lemma dl_scal : forall g t a k, derivable_pt_lim g t a -> derivable_pt_lim (fun s => k * g s) t (k * a).
Proof. intros g t a k H. eapply dl_eq; [apply (dl_mult (fun _ => k) g); [apply dl_const|exact H]|cbv beta; ring]. Qed.
Lemma dl_id : forall t, derivable_pt_lim (fun s => s) t 1. Proof. exact derivable_pt_lim_id. Qed.

Section Layer.
Variables (F0 : R) (i : nat).
Hypothesis MU : mu <> 0.
Notation J := (beam_source F0 (om x) (ph x) (bt x) (sl x)).
Notation b := (unit_of F0 mu).

Lemma up_solves : forall I t, 1 / mu + sl x i <> 0 ->
  derivable_pt_lim (fun t => val (upl i t I) * b) t ((val (upl i t I) * b - J i t) / mu).
Proof.
  intros I t NZ. unfold up_layer; cbn [val].
  eapply dl_eq.
  - apply dl_mult; [|apply dl_const]. apply dl_plus.
    + apply dl_mult; [|apply dl_const].
      apply (dl_exp (fun t => - (lt x i - t) / mu)). apply dl_div; [|apply dl_const|exact MU].
      apply (dl_eq _ _ (- (0 - 1))); [|reflexivity]. apply derivable_pt_lim_opp. apply dl_minus; [apply dl_const|apply dl_id].
    + apply dl_mult; [|apply dl_const]. apply dl_mult.
      * apply dl_mult; [|apply dl_const]. apply dl_scal.
        apply (dl_exp (fun t => - t * sl x i)). apply dl_mult; [|apply dl_const]. apply derivable_pt_lim_opp, dl_id.
      * apply dl_div; [|apply dl_const|exact NZ]. apply dl_minus; [apply dl_const|]. apply dl_mult.
        -- apply (dl_exp (fun t => - (lt x i - t) / mu)). apply dl_div; [|apply dl_const|exact MU].
           apply (dl_eq _ _ (- (0 - 1))); [|reflexivity]. apply derivable_pt_lim_opp. apply dl_minus; [apply dl_const|apply dl_id].
        -- apply (dl_exp (fun t => - (lt x i - t) * sl x i)). apply dl_mult; [|apply dl_const].
           apply (dl_eq _ _ (- (0 - 1))); [|reflexivity]. apply derivable_pt_lim_opp. apply dl_minus; [apply dl_const|apply dl_id].
  - cbv beta. unfold beam_source, unit_of. replace (- sl x i * t) with (- t * sl x i) by ring.
    generalize (exp (- (lt x i - t) / mu)) (exp (- (lt x i - t) * sl x i)) (exp (- t * sl x i)). intros E D A.
    assert (1 + sl x i * mu <> 0) by (intros Z; apply NZ; replace (1 / mu + sl x i) with ((1 + sl x i * mu) / mu) by (field; exact MU);
      rewrite Z; unfold Rdiv; ring).
    pose proof PI_neq0. field. repeat split; assumption.
Qed.

Lemma dn_solves : forall I t, sl x i - 1 / mu <> 0 ->
  derivable_pt_lim (fun t => val (dnl i t I) * b) t ((J i t - val (dnl i t I) * b) / mu).
Proof.
  intros I t NZ. unfold dn_layer; cbn [val].
  assert (forall k, derivable_pt_lim (fun t => exp (- t * k)) t (- k * exp (- t * k))) as EX.
  { intros k. eapply dl_eq; [apply (dl_exp (fun t => - t * k)); apply dl_mult; [apply derivable_pt_lim_opp, dl_id|apply dl_const]|cbv beta; ring]. }
  eapply dl_eq.
  - apply dl_mult; [|apply dl_const]. apply dl_plus.
    + apply dl_mult; [|apply dl_const]. exact (EX (/ mu)).
    + apply dl_mult; [|apply dl_const]. apply dl_scal. apply dl_div; [|apply dl_const|exact NZ].
      apply dl_minus; [exact (EX (/ mu))|exact (EX (sl x i))].
  - cbv beta. unfold beam_source, unit_of. replace (- sl x i * t) with (- t * sl x i) by ring. unfold Rdiv at 1 2 3 4 5 6 7.
    change (- t / mu) with (- t * / mu).
    generalize (exp (- t * / mu)) (exp (- t * sl x i)). intros E A.
    assert (sl x i * mu - 1 <> 0) by (intros Z; apply NZ; replace (sl x i - 1 / mu) with ((sl x i * mu - 1) / mu) by (field; exact MU);
      rewrite Z; unfold Rdiv; ring).
    pose proof PI_neq0. field. repeat split; assumption.
Qed.

Lemma up_bottom : forall I, val (upl i (lt x i) I) = val I.
Proof.
  intros I. unfold up_layer; cbn [val]. replace (lt x i - lt x i) with 0 by ring.
  replace (- 0 / mu) with 0 by (unfold Rdiv; ring). replace (- 0 * sl x i) with 0 by ring. rewrite exp_0. unfold Rdiv. ring.
Qed.
Lemma dn_top : forall I, val (dnl i 0 I) = val I. Proof. intros I. apply dn_zero. Qed.

Lemma up_layer_exact : forall (F : R -> R) I u, 1 / mu + sl x i <> 0 -> 0 <= u <= lt x i ->
  (forall t, 0 <= t <= lt x i -> derivable_pt_lim F t ((F t - J i t) / mu)) ->
  val I * b = F (lt x i) -> val (upl i u I) * b = F u.
Proof.
  intros F I u NZ U H E. symmetry.
  apply (same_solution (1 / mu) F (fun t => val (upl i t I) * b) (fun t => - J i t / mu) u (lt x i)); [lra| | |].
  - intros t T. eapply dl_eq; [apply H; lra|field; exact MU].
  - intros t T. eapply dl_eq; [apply up_solves; exact NZ|cbv beta; field; exact MU].
  - rewrite up_bottom. symmetry. exact E.
Qed.
Lemma dn_layer_exact : forall (F : R -> R) I u, sl x i - 1 / mu <> 0 -> 0 <= u <= lt x i ->
  (forall t, 0 <= t <= lt x i -> derivable_pt_lim F t ((J i t - F t) / mu)) ->
  val I * b = F 0 -> val (dnl i u I) * b = F u.
Proof.
  intros F I u NZ U H E. symmetry.
  apply (same_solution (- 1 / mu) F (fun t => val (dnl i t I) * b) (fun t => J i t / mu) 0 u); [lra| | |].
  - intros t T. eapply dl_eq; [apply H; lra|field; exact MU].
  - intros t T. eapply dl_eq; [apply dn_solves; exact NZ|cbv beta; field; exact MU].
  - rewrite dn_top. symmetry. exact E.
Qed.
End Layer.

(** ** All layers *)
Section Chain.
Variables (F0 : R) (n : nat).
Hypothesis MU : mu <> 0.
Hypothesis LT : forall i, (i < n)%nat -> 0 < lt x i.
Notation J := (beam_source F0 (om x) (ph x) (bt x) (sl x)).
Notation b := (unit_of F0 mu).

Section GoesUp.
Variables (F : field) (I : elem).
Hypothesis NZ : forall i, (i < n)%nat -> 1 / mu + sl x i <> 0.
Hypothesis GO : goes_up n (lt x) mu J (val I * b) F.
Lemma up_at_exact : forall k, (k <= n)%nat ->
  ((0 < k)%nat -> val (up_at n k I) * b = F (n - k)%nat 0) /\
  ((k < n)%nat -> val (up_at n k I) * b = F (n - S k)%nat (lt x (n - S k)%nat)).
Proof.
  destruct GO as (D & C & B). induction k; intros K.
  - split; [lia|]. intros N. cbn [up_at]. symmetry. apply B. lia.
  - destruct (IHk ltac:(lia)) as (_ & Q). specialize (Q ltac:(lia)).
    assert (val (up_at n (S k) I) * b = F (n - S k)%nat 0) as E.
    { cbn [up_at]. apply up_layer_exact with (F := F (n - S k)%nat); [exact MU|apply NZ; lia| | |exact Q].
      - pose proof (LT (n - S k)%nat ltac:(lia)). lra.
      - intros t T. apply D; [lia|exact T]. }
    split; [intros _; exact E|]. intros N. rewrite E. replace (n - S k)%nat with (S (n - S (S k))) by lia. symmetry. apply C. lia.
Qed.
Lemma up_out_exact : forall q k, (0 < n)%nat -> asked n (nu q) (ul q) (taus q) -> inside (nu q) (ul q) (ut q) (lt x) (taus q) -> (k < nu q)%nat ->
  wanted n (lt x) F (taus q) (ul q k) (ut q k) (val (up_out n q I k) * b).
Proof.
  intros q k N A IN K. pose proof (ask_le n q A k K) as LE. unfold wanted, up_out, inside in *. unfold asked in A.
  destruct (taus q).
  - destruct A as (_ & A & _). specialize (A k K).
    apply up_layer_exact with (F := F (ul q k)); [exact MU|apply NZ; exact A|apply IN; auto| |].
    + intros t T. apply GO; [exact A|exact T].
    + destruct (up_at_exact (n - S (ul q k)) ltac:(lia)) as (_ & Q). specialize (Q ltac:(lia)).
      replace (n - S (n - S (ul q k)))%nat with (ul q k) in Q by lia. exact Q.
  - destruct (up_at_exact (n - ul q k) ltac:(lia)) as (Q1 & Q2). split.
    + intros L. rewrite Q1 by lia. f_equal. lia.
    + intros L. rewrite Q2 by lia. replace (n - S (n - ul q k))%nat with (ul q k - 1)%nat by lia. reflexivity.
Qed.
End GoesUp.

Lemma up_field : forall I, (forall i, (i < n)%nat -> 1 / mu + sl x i <> 0) ->
  goes_up n (lt x) mu J (val I * b) (fun i t => val (upl i t (up_at n (n - S i) I)) * b).
Proof.
  intros I NZ. refine (conj _ (conj _ _)).
  - intros i t L _. apply up_solves; [exact MU|apply NZ; exact L].
  - intros i L. rewrite up_bottom. replace (n - S i)%nat with (S (n - S (S i))) by lia. cbn [up_at].
    replace (n - S (n - S (S i)))%nat with (S i) by lia. reflexivity.
  - intros i <-. rewrite up_bottom, Nat.sub_diag. reflexivity.
Qed.

Section GoesDown.
Variables (F : field) (I : elem).
Hypothesis NZ : forall i, (i < n)%nat -> sl x i - 1 / mu <> 0.
Hypothesis GO : goes_down n (lt x) mu J (val I * b) F.
Lemma dn_at_exact : forall k, (k <= n)%nat ->
  ((0 < k)%nat -> val (dn_at k I) * b = F (k - 1)%nat (lt x (k - 1)%nat)) /\
  ((k < n)%nat -> val (dn_at k I) * b = F k 0).
Proof.
  destruct GO as (D & C & B). induction k; intros K.
  - split; [lia|]. intros N. cbn [dn_at]. symmetry. exact B.
  - destruct (IHk ltac:(lia)) as (_ & Q). specialize (Q ltac:(lia)).
    assert (val (dn_at (S k) I) * b = F k (lt x k)) as E.
    { cbn [dn_at]. apply dn_layer_exact with (F := F k); [exact MU|apply NZ; lia| | |exact Q].
      - pose proof (LT k ltac:(lia)). lra.
      - intros t T. apply D; [lia|exact T]. }
    split.
    + intros _. replace (S k - 1)%nat with k by lia. exact E.
    + intros N. rewrite E. apply C. lia.
Qed.
Lemma dn_out_exact : forall q k, (0 < n)%nat -> asked n (nu q) (ul q) (taus q) -> inside (nu q) (ul q) (ut q) (lt x) (taus q) -> (k < nu q)%nat ->
  wanted n (lt x) F (taus q) (ul q k) (ut q k) (val (dn_out q I k) * b).
Proof.
  intros q k N A IN K. pose proof (ask_le n q A k K) as LE. unfold wanted, dn_out, inside in *. unfold asked in A.
  destruct (taus q).
  - destruct A as (_ & A & _). specialize (A k K).
    apply dn_layer_exact with (F := F (ul q k)); [exact MU|apply NZ; exact A|apply IN; auto| |].
    + intros t T. apply GO; [exact A|exact T].
    + apply (dn_at_exact (ul q k) ltac:(lia)). exact A.
  - destruct (dn_at_exact (ul q k) LE) as (Q1 & Q2). split; [exact Q2|exact Q1].
Qed.
End GoesDown.

Lemma dn_field : forall I, (forall i, (i < n)%nat -> sl x i - 1 / mu <> 0) ->
  goes_down n (lt x) mu J (val I * b) (fun i t => val (dnl i t (dn_at i I)) * b).
Proof.
  intros I NZ. refine (conj _ (conj _ _)).
  - intros i t L _. apply dn_solves; [exact MU|apply NZ; exact L].
  - intros i L. rewrite dn_top. reflexivity.
  - rewrite dn_top. reflexivity.
Qed.
End Chain.
End Element.

(** ** Derivatives *)
Definition smooth (n : nat) (s0 : R) (f : R -> nat -> R) (l : nat -> R) : Prop := forall i, (i < n)%nat -> derivable_pt_lim (fun s => f s i) s0 (l i).
Definition moving (n : nat) (s0 : R) (X : R -> lay) (d : lay) : Prop :=
  smooth n s0 (fun s => om (X s)) (om d) /\ smooth n s0 (fun s => lt (X s)) (lt d) /\ smooth n s0 (fun s => ph (X s)) (ph d) /\
  smooth n s0 (fun s => bt (X s)) (bt d) /\ smooth n s0 (fun s => sl (X s)) (sl d).

Section Derivs.
Variables (X : R -> lay) (s0 : R) (dx : nat -> lay) (v : varied) (mu : R) (n j : nat).
Hypothesis MU : mu <> 0.
Hypothesis MV : moving n s0 X (dx j).
Hypothesis LT : forall i, (i < n)%nat -> lt (X s0) i <> 0.
Hypothesis FL : forall i, (i < n)%nat -> v i j = false -> ph (dx j) i = 0.

Definition follows (I : R -> elem) : Prop := derivable_pt_lim (fun s => val (I s)) s0 (der (I s0) j).

Lemma up_layer_deriv : forall i u0 (u : R -> R) I, (i < n)%nat -> 1 / mu + sl (X s0) i <> 0 -> follows I -> u s0 = u0 ->
  derivable_pt_lim u s0 (u0 * lt (dx j) i / lt (X s0) i) ->
  follows (fun s => up_layer (X s) dx v mu i (u s) (I s)).
Proof.
  intros i u0 u I L NZ H US U. unfold follows, up_layer; cbn [val der].
  destruct MV as (MO & ML & MP & MB & MS). specialize (MO i L). specialize (ML i L). specialize (MP i L). specialize (MB i L). specialize (MS i L).
  cbv beta in *. set (ul := u0 * lt (dx j) i / lt (X s0) i) in *.
  assert (derivable_pt_lim (fun s => exp (- u s * sl (X s) i)) s0 ((- ul * sl (X s0) i - u0 * sl (dx j) i) * exp (- u s0 * sl (X s0) i))) as DA.
  { eapply dl_eq; [apply (dl_exp (fun s => - u s * sl (X s) i)); apply dl_mult; [apply derivable_pt_lim_opp; exact U|exact MS]|].
    cbv beta. rewrite US. ring. }
  assert (derivable_pt_lim (fun s => lt (X s) i - u s) s0 (lt (dx j) i - ul)) as DC by (apply dl_minus; assumption).
  set (cl := lt (dx j) i - ul) in *.
  assert (derivable_pt_lim (fun s => exp (- (lt (X s) i - u s) * sl (X s) i)) s0
    ((- cl * sl (X s0) i - (lt (X s0) i - u0) * sl (dx j) i) * exp (- (lt (X s0) i - u s0) * sl (X s0) i))) as DD.
  { eapply dl_eq; [apply (dl_exp (fun s => - (lt (X s) i - u s) * sl (X s) i)); apply dl_mult; [apply derivable_pt_lim_opp; exact DC|exact MS]|].
    cbv beta. rewrite US. ring. }
  assert (derivable_pt_lim (fun s => exp (- (lt (X s) i - u s) / mu)) s0 (- cl * (exp (- (lt (X s0) i - u s0) / mu) / mu))) as DE.
  { eapply dl_eq; [apply (dl_exp (fun s => - (lt (X s) i - u s) / mu)); apply dl_div; [apply derivable_pt_lim_opp; exact DC|apply dl_const|exact MU]|].
    cbv beta. field. exact MU. }
  eapply dl_eq.
  - apply dl_plus; [apply dl_mult; [exact DE|exact H]|]. apply dl_mult; [|exact MP]. apply dl_mult.
    + apply dl_mult; [apply dl_mult; [exact MB|exact DA]|exact MO].
    + apply dl_div; [apply dl_minus; [apply dl_const|apply dl_mult; [exact DE|exact DD]]| |exact NZ].
      apply dl_plus; [apply dl_const|exact MS].
  - cbv beta. rewrite US. fold ul. fold cl.
    set (E := exp (- (lt (X s0) i - u0) / mu)). set (D := exp (- (lt (X s0) i - u0) * sl (X s0) i)). set (A := exp (- u0 * sl (X s0) i)).
    destruct (v i j) eqn:V; [|rewrite (FL i L V)];
    generalize (1 / mu + sl (X s0) i) NZ; intros f Nf; field; auto.
Qed.

Lemma dn_layer_deriv : forall i u0 (u : R -> R) I, (i < n)%nat -> sl (X s0) i - 1 / mu <> 0 -> follows I -> u s0 = u0 ->
  derivable_pt_lim u s0 (u0 * lt (dx j) i / lt (X s0) i) ->
  follows (fun s => dn_layer (X s) dx v mu i (u s) (I s)).
Proof.
  intros i u0 u I L NZ H US U. unfold follows, dn_layer; cbn [val der].
  destruct MV as (MO & ML & MP & MB & MS). specialize (MO i L). specialize (ML i L). specialize (MP i L). specialize (MB i L). specialize (MS i L).
  cbv beta in *. set (ul := u0 * lt (dx j) i / lt (X s0) i) in *.
  assert (derivable_pt_lim (fun s => exp (- u s * sl (X s) i)) s0 ((- ul * sl (X s0) i - u0 * sl (dx j) i) * exp (- u s0 * sl (X s0) i))) as DB.
  { eapply dl_eq; [apply (dl_exp (fun s => - u s * sl (X s) i)); apply dl_mult; [apply derivable_pt_lim_opp; exact U|exact MS]|].
    cbv beta. rewrite US. ring. }
  assert (derivable_pt_lim (fun s => exp (- u s / mu)) s0 (- ul * (exp (- u s0 / mu) / mu))) as DC.
  { eapply dl_eq; [apply (dl_exp (fun s => - u s / mu)); apply dl_div; [apply derivable_pt_lim_opp; exact U|apply dl_const|exact MU]|].
    cbv beta. field. exact MU. }
  eapply dl_eq.
  - apply dl_plus; [apply dl_mult; [exact DC|exact H]|]. apply dl_mult; [|exact MP]. apply dl_mult.
    + apply dl_mult; [exact MB|exact MO].
    + apply dl_div; [apply dl_minus; [exact DC|exact DB]| |exact NZ]. apply dl_minus; [exact MS|apply dl_const].
  - cbv beta. rewrite US. fold ul.
    set (C := exp (- u0 / mu)). set (B := exp (- u0 * sl (X s0) i)).
    destruct (v i j) eqn:V; [|rewrite (FL i L V)];
    generalize (sl (X s0) i - 1 / mu) NZ; intros f Nf; field; auto.
Qed.

Lemma up_at_deriv : forall I k, (k <= n)%nat -> (forall i, (i < n)%nat -> 1 / mu + sl (X s0) i <> 0) -> follows I ->
  follows (fun s => up_at (X s) dx v mu n k (I s)).
Proof.
  intros I k K NZ H. induction k; cbn [up_at]; [exact H|].
  apply (up_layer_deriv (n - S k) 0 (fun _ => 0)); [lia|apply NZ; lia|apply IHk; lia|reflexivity|].
  eapply dl_eq; [apply dl_const|unfold Rdiv; ring].
Qed.
Lemma dn_at_deriv : forall I k, (k <= n)%nat -> (forall i, (i < n)%nat -> sl (X s0) i - 1 / mu <> 0) -> follows I ->
  follows (fun s => dn_at (X s) dx v mu k (I s)).
Proof.
  intros I k K NZ H. induction k; cbn [dn_at]; [exact H|].
  apply (dn_layer_deriv k (lt (X s0) k) (fun s => lt (X s) k)); [lia|apply NZ; lia|apply IHk; lia|reflexivity|].
  destruct MV as (_ & ML & _). eapply dl_eq; [apply ML; lia|field; apply LT; lia].
Qed.
End Derivs.
