(** Perturbing, solving and going back. *)
From Coq Require Import Reals Bool Arith Lia Lra List FunctionalExtensionality.
From Verif Require Import Base FdModel FdSpec.
Open Scope R_scope.

Lemma lt0_no : forall x, 0 <= x -> lt0 x = false.
Proof. intros x H. unfold lt0. destruct (Rlt_dec x 0); [lra|reflexivity]. Qed.
Lemma gt1_no : forall x, x <= 1 -> gt1 x = false.
Proof. intros x H. unfold gt1. destruct (Rlt_dec 1 x); [lra|reflexivity]. Qed.
Lemma adjust_no : forall e x, x <= 1 - e -> adjust_down e x = x.
Proof. intros e x H. unfold adjust_down. destruct (Rlt_dec (1 - x) e); [lra|reflexivity]. Qed.
Lemma then_ok : forall a b s s' s'', a s = (s', true) -> b s' = s'' -> then_ a b s = s''.
Proof. intros a b s s' s'' A B. unfold then_. rewrite A. exact B. Qed.
(** a loop in which pass [k] takes the state from F k to F (k + 1) *)
Lemma each_ok : forall (F : nat -> inputs) f n, (forall k, (k < n)%nat -> f k (F k) = (F (S k), true)) -> each n f (F 0%nat) = (F n, true).
Proof.
  intros F f n H. induction n as [|n IH]; [reflexivity|]. cbn [each]. eapply then_ok; [apply IH; intros k Hk; apply H; lia|]. apply H. lia.
Qed.

Definition upto {A} (n : nat) (new old : nat -> A) : nat -> A := fun i => if Nat.ltb i n then new i else old i.
Lemma upto_0 : forall A (new old : nat -> A), upto 0 new old = old.
Proof. reflexivity. Qed.
Lemma put_upto : forall A k x (new old : nat -> A), x = new k -> put k x (upto k new old) = upto (S k) new old.
Proof.
  intros A k x new old ->. apply functional_extensionality. intros i. unfold put, upto.
  destruct (Nat.eqb_spec i k) as [->|N]; [destruct (Nat.ltb_spec k (S k)); [reflexivity|lia]|].
  destruct (Nat.ltb_spec i k), (Nat.ltb_spec i (S k)); try lia; reflexivity.
Qed.
Lemma upto_at : forall A k (new old : nat -> A), upto k new old k = old k.
Proof. intros A k new old. unfold upto. rewrite Nat.ltb_irrefl. reflexivity. Qed.

Lemma put_at : forall A i (x : A) f, put i x f i = x.
Proof. intros A i x f. unfold put. rewrite Nat.eqb_refl. reflexivity. Qed.
Lemma put_put : forall A i (x y : A) f, put i x (put i y f) = put i x f.
Proof. intros A i x y f. apply functional_extensionality. intros a. unfold put. destruct (Nat.eqb a i); reflexivity. Qed.

Section Perturb.
Variables (sz : sizes) (f : R) (p : step).

Definition with_coef (s : inputs) (c : nat -> nat -> nat -> R) : inputs :=
  {| top := top s; bot := bot s; surf := surf s; lev := lev s; ncoef := ncoef s; coef := c; omega := omega s; ltau := ltau s; amp := amp s; par := par s |}.
Definition with_omega (s : inputs) (c : nat -> R) : inputs :=
  {| top := top s; bot := bot s; surf := surf s; lev := lev s; ncoef := ncoef s; coef := coef s; omega := c; ltau := ltau s; amp := amp s; par := par s |}.
Definition with_ltau (s : inputs) (c : nat -> R) : inputs :=
  {| top := top s; bot := bot s; surf := surf s; lev := lev s; ncoef := ncoef s; coef := coef s; omega := omega s; ltau := c; amp := amp s; par := par s |}.
Definition with_kernels (s : inputs) (a : nat -> R) (c : nat -> nat -> R) : inputs :=
  {| top := top s; bot := bot s; surf := surf s; lev := lev s; ncoef := ncoef s; coef := coef s; omega := omega s; ltau := ltau s; amp := a; par := c |}.
Definition with_thermal (s : inputs) (a b c : R) (l : nat -> R) : inputs :=
  {| top := a; bot := b; surf := c; lev := l; ncoef := ncoef s; coef := coef s; omega := omega s; ltau := ltau s; amp := amp s; par := par s |}.

Lemma thermal_part : forall s, 0 <= top s + f * top_p p -> 0 <= bot s + f * bot_p p -> 0 <= surf s + f * surf_p p ->
  (forall i, (i <= nL sz)%nat -> 0 <= lev s i + f * lev_p p i) ->
  then_ (fun s => set_top (top s + f * top_p p) s) (then_ (fun s => set_bot (bot s + f * bot_p p) s)
    (then_ (fun s => set_lev sz (fun i => lev s i + f * lev_p p i) s) (fun s => set_surf (surf s + f * surf_p p) s))) s =
  (with_thermal s (top s + f * top_p p) (bot s + f * bot_p p) (surf s + f * surf_p p) (upto (S (nL sz)) (fun i => lev s i + f * lev_p p i) (lev s)), true).
Proof.
  intros s H1 H2 H3 H4. eapply then_ok; [unfold set_top; rewrite lt0_no by exact H1; reflexivity|].
  eapply then_ok; [unfold set_bot; cbn [bot]; rewrite lt0_no by exact H2; reflexivity|].
  eapply then_ok; [unfold set_lev; cbn [lev]|].
  - destruct (existsb _ _) eqn:E; [|reflexivity]. apply existsb_exists in E as (i & Hi & E). apply in_seq in Hi. rewrite lt0_no in E by (apply H4; lia). discriminate.
  - unfold set_surf. cbn [surf]. rewrite lt0_no by exact H3. unfold with_thermal. cbn [top bot surf lev ncoef coef omega ltau amp par]. rewrite Nat.add_1_r. reflexivity.
Qed.
Definition new_coef (s : inputs) (i k l : nat) : R :=
  if Nat.ltb k (nE sz) && Nat.ltb l (ncoef s i) then coef s i k l + f * coef_p p i k l else coef s i k l.
Lemma coef_part : forall s, (forall i, (i < nL sz)%nat -> (ncoef s i <= nC sz)%nat /\ ((1 < ncoef s i)%nat -> Rabs (1 - (coef s i 0%nat 0%nat + f * coef_p p i 0%nat 0%nat)) <= eps)) ->
  each (nL sz) (fun i s => set_coef sz i (ncoef s i) (fun k l => coef s i k l + f * coef_p p i k l) s) s = (with_coef s (upto (nL sz) (new_coef s) (coef s)), true).
Proof.
  intros s H. assert (s = with_coef s (upto 0 (new_coef s) (coef s))) as E by (destruct s; reflexivity). rewrite E at 1.
  apply (each_ok (fun n => with_coef s (upto n (new_coef s) (coef s)))). intros k Hk. destruct (H k Hk) as [H1 H2].
  unfold set_coef. cbn [with_coef ncoef coef]. rewrite upto_at.
  destruct (Nat.ltb_spec (nC sz) (ncoef s k)) as [F|_]; [lia|].
  assert (Nat.ltb 1 (ncoef s k) && (if Rlt_dec eps (Rabs (1 - (coef s k 0%nat 0%nat + f * coef_p p k 0%nat 0%nat))) then true else false) = false) as ->.
  { destruct (Nat.ltb_spec 1 (ncoef s k)) as [L|_]; [|reflexivity]. specialize (H2 L). destruct (Rlt_dec _ _); [lra|reflexivity]. }
  unfold with_coef. cbn [top bot surf lev ncoef coef omega ltau amp par]. f_equal. f_equal.
  - apply functional_extensionality. intros i. unfold put. destruct (Nat.eqb_spec i k) as [->|_]; reflexivity.
  - apply put_upto. reflexivity.
Qed.
Lemma omega_part : forall s, (forall i, (i < nL sz)%nat -> 0 <= omega s i + f * omega_p p i <= 1 - thr sz) -> 0 <= thr sz ->
  each (nL sz) (fun i s => set_omega sz i (omega s i + f * omega_p p i) s) s = (with_omega s (upto (nL sz) (fun i => omega s i + f * omega_p p i) (omega s)), true).
Proof.
  intros s H T. set (new := fun i => omega s i + f * omega_p p i).
  assert (s = with_omega s (upto 0 new (omega s))) as E by (destruct s; reflexivity). rewrite E at 1.
  apply (each_ok (fun n => with_omega s (upto n new (omega s)))). intros k Hk. specialize (H k Hk).
  unfold set_omega. cbn [with_omega omega]. rewrite upto_at. rewrite lt0_no, gt1_no, adjust_no by lra. cbn [orb].
  unfold with_omega. cbn [top bot surf lev ncoef coef omega ltau amp par]. rewrite put_upto by reflexivity. reflexivity.
Qed.
Lemma ltau_part : forall s, (forall i, (i < nL sz)%nat -> 0 < ltau s i + f * ltau_p p i) ->
  each (nL sz) (fun i s => set_ltau i (ltau s i + f * ltau_p p i) s) s = (with_ltau s (upto (nL sz) (fun i => ltau s i + f * ltau_p p i) (ltau s)), true).
Proof.
  intros s H. set (new := fun i => ltau s i + f * ltau_p p i).
  assert (s = with_ltau s (upto 0 new (ltau s))) as E by (destruct s; reflexivity). rewrite E at 1.
  apply (each_ok (fun n => with_ltau s (upto n new (ltau s)))). intros k Hk. specialize (H k Hk).
  unfold set_ltau. cbn [with_ltau ltau]. rewrite upto_at. destruct (Rle_dec _ _) as [F|_]; [lra|].
  unfold with_ltau. cbn [top bot surf lev ncoef coef omega ltau amp par]. rewrite put_upto by reflexivity. reflexivity.
Qed.
Lemma kernel_part : forall s, (forall i, (i < nK sz)%nat -> 0 <= amp s i + f * amp_p p i <= 1) ->
  each (nK sz) (fun i => then_ (fun s => set_amp i (amp s i + f * amp_p p i) s) (each (kp sz i) (fun k s => set_par i k (par s i k + f * par_p p i k) s))) s =
  (with_kernels s (upto (nK sz) (fun i => amp s i + f * amp_p p i) (amp s))
     (upto (nK sz) (fun i => upto (kp sz i) (fun k => par s i k + f * par_p p i k) (par s i)) (par s)), true).
Proof.
  intros s H. set (na := fun i => amp s i + f * amp_p p i). set (np := fun i => upto (kp sz i) (fun k => par s i k + f * par_p p i k) (par s i)).
  assert (s = with_kernels s (upto 0 na (amp s)) (upto 0 np (par s))) as E by (destruct s; reflexivity). rewrite E at 1.
  apply (each_ok (fun n => with_kernels s (upto n na (amp s)) (upto n np (par s)))). intros i Hi. specialize (H i Hi).
  eapply then_ok; [unfold set_amp; cbn [with_kernels amp]; rewrite upto_at, lt0_no, gt1_no by lra; cbn [orb]; reflexivity|].
  set (s' k := with_kernels s (upto (S i) na (amp s)) (put i (upto k (fun k => par s i k + f * par_p p i k) (par s i)) (upto i np (par s)))).
  transitivity (each (kp sz i) (fun k s => set_par i k (par s i k + f * par_p p i k) s) (s' 0%nat)).
  - f_equal. unfold s', with_kernels. cbn [top bot surf lev ncoef coef omega ltau amp par]. rewrite put_upto by reflexivity. f_equal.
    apply functional_extensionality. intros a. unfold put. destruct (Nat.eqb_spec a i) as [->|_]; [rewrite upto_at|]; reflexivity.
  - rewrite (each_ok s').
    + f_equal. unfold s', with_kernels. f_equal. apply put_upto. reflexivity.
    + intros k Hk. unfold set_par, s', with_kernels. cbn [top bot surf lev ncoef coef omega ltau amp par]. f_equal. f_equal.
      rewrite put_at, put_put, upto_at. f_equal. apply put_upto. reflexivity.
Qed.

(** perturb_values moves the inputs where that gives values that can be set. *)
Lemma perturb_moves : forall s, (0 < nE sz)%nat -> 0 <= thr sz -> admissible sz (moved sz s f p) -> perturb sz f p s = (moved sz s f p, true).
Proof.
  intros s E T (A & B & C). unfold perturb.
  assert (forall i, (i < nL sz)%nat -> Nat.ltb i (nL sz) = true) as Hl by (intros i; apply Nat.ltb_lt).
  assert (forall i, (i < nK sz)%nat -> Nat.ltb i (nK sz) = true) as Hk by (intros i; apply Nat.ltb_lt).
  set (s1 := if thermal sz then with_thermal s (top s + f * top_p p) (bot s + f * bot_p p) (surf s + f * surf_p p) (upto (S (nL sz)) (fun i => lev s i + f * lev_p p i) (lev s)) else s).
  apply (then_ok _ _ _ s1).
  { unfold s1, when. destruct (thermal sz) eqn:Th; [|reflexivity]. destruct (A eq_refl) as (A1 & A2 & A3 & A4).
    cbn [moved top bot surf lev] in A1, A2, A3, A4. rewrite Th in A1, A2, A3. apply thermal_part; try assumption.
    intros i Hi. specialize (A4 i Hi). rewrite Th in A4. apply Nat.leb_le in Hi. rewrite Hi in A4. exact A4. }
  assert (ncoef s1 = ncoef s /\ coef s1 = coef s /\ omega s1 = omega s /\ ltau s1 = ltau s /\ amp s1 = amp s /\ par s1 = par s) as (E1 & E2 & E3 & E4 & E5 & E6)
    by (unfold s1; destruct (thermal sz); refine (conj _ (conj _ (conj _ (conj _ (conj _ _))))); reflexivity).
  apply (then_ok _ _ _ (with_coef s1 (upto (nL sz) (new_coef s1) (coef s1)))).
  { apply coef_part. intros i Hi. rewrite E1, E2. destruct (B i Hi) as (B1 & B2 & _). cbn [moved ncoef coef] in B1, B2. split; [exact B1|].
    intros L. specialize (B2 L). rewrite (Hl i Hi) in B2. apply Nat.ltb_lt in E as E'. rewrite E' in B2. assert (Nat.ltb 0 (ncoef s i) = true) as L' by (apply Nat.ltb_lt; lia).
    rewrite L' in B2. exact B2. }
  eapply then_ok; [apply omega_part; [|exact T]; cbn [with_coef omega]; rewrite E3; intros i Hi; destruct (B i Hi) as (_ & _ & B3 & _); cbn [moved omega] in B3; rewrite (Hl i Hi) in B3; exact B3|].
  eapply then_ok; [apply ltau_part; cbn [with_coef with_omega ltau]; rewrite E4; intros i Hi; destruct (B i Hi) as (_ & _ & _ & B4); cbn [moved ltau] in B4; rewrite (Hl i Hi) in B4; exact B4|].
  etransitivity; [apply kernel_part; cbn [with_coef with_omega with_ltau amp]; rewrite E5; intros i Hi; specialize (C i Hi); cbn [moved amp] in C; rewrite (Hk i Hi) in C; exact C|].
  f_equal. unfold with_kernels, with_ltau, with_omega, with_coef, moved. cbn [top bot surf lev ncoef coef omega ltau amp par]. rewrite E1, E2, E3, E4, E5, E6.
  assert (top s1 = top s + f * (if thermal sz then top_p p else 0)) as -> by (unfold s1; destruct (thermal sz); cbn; ring).
  assert (bot s1 = bot s + f * (if thermal sz then bot_p p else 0)) as -> by (unfold s1; destruct (thermal sz); cbn; ring).
  assert (surf s1 = surf s + f * (if thermal sz then surf_p p else 0)) as -> by (unfold s1; destruct (thermal sz); cbn; ring).
  f_equal.
  - apply functional_extensionality. intros i. unfold s1. destruct (thermal sz); cbn [with_thermal lev]; [|destruct (Nat.leb i (nL sz)); ring].
    unfold upto. destruct (Nat.ltb_spec i (S (nL sz))), (Nat.leb_spec i (nL sz)); try lia; ring.
  - apply functional_extensionality. intros i. unfold upto, new_coef. rewrite E1, E2. apply functional_extensionality. intros k. apply functional_extensionality. intros l.
    destruct (Nat.ltb i (nL sz)); cbn [andb]; [|ring]. destruct (Nat.ltb k (nE sz) && Nat.ltb l (ncoef s i)); ring.
  - apply functional_extensionality. intros i. unfold upto. destruct (Nat.ltb i (nL sz)); ring.
  - apply functional_extensionality. intros i. unfold upto. destruct (Nat.ltb i (nL sz)); ring.
  - apply functional_extensionality. intros i. unfold upto. destruct (Nat.ltb i (nK sz)); ring.
  - apply functional_extensionality. intros i. apply functional_extensionality. intros k. unfold upto. destruct (Nat.ltb i (nK sz)); cbn [andb]; [|ring].
    destruct (Nat.ltb k (kp sz i)); ring.
Qed.
End Perturb.

Lemma moved_moved : forall sz s t u p, moved sz (moved sz s t p) u p = moved sz s (t + u) p.
Proof.
  intros sz s t u p. unfold moved. cbn [top bot surf lev ncoef coef omega ltau amp par].
  f_equal; try (repeat (apply functional_extensionality; intros ?)); ring.
Qed.
Lemma moved_0 : forall sz s p, moved sz s 0 p = s.
Proof.
  intros sz s p. destruct s as [a b c l n co w t k q]. unfold moved. cbn [top bot surf lev ncoef coef omega ltau amp par].
  f_equal; try (repeat (apply functional_extensionality; intros ?)); ring.
Qed.

Section Solution.
Variables (sz : sizes) (solve : inputs -> option field) (no : nat) (delta : nat -> R) (p : nat -> step) (s : inputs).
Hypothesis HE : (0 < nE sz)%nat.
Hypothesis HT : 0 <= thr sz.

Lemma central_one : forall I1 j old a b, admissible sz s -> admissible sz (moved sz s 1 (p j)) -> admissible sz (moved sz s (-1) (p j)) ->
  solve (moved sz s 1 (p j)) = Some a -> solve (moved sz s (-1) (p j)) = Some b ->
  exists d, derivative sz solve no true delta p CENTRAL I1 j s old = Some (s, d, true) /\
    (forall o, (o < no)%nat -> d o = (a o - b o) / delta j) /\ (forall o, (no <= o)%nat -> d o = old o).
Proof.
  intros I1 j old a b A0 A1 A2 S1 S2. unfold derivative. rewrite (perturb_moves sz 1 (p j) s HE HT A1). cbn [negb]. rewrite S1.
  assert (moved sz (moved sz s 1 (p j)) (-2) (p j) = moved sz s (-1) (p j)) as E1 by (rewrite moved_moved; f_equal; ring).
  rewrite (perturb_moves sz (-2) (p j) _ HE HT) by (rewrite E1; exact A2). rewrite E1, S2.
  assert (moved sz (moved sz s (-1) (p j)) 1 (p j) = s) as E2 by (rewrite moved_moved; replace (-1 + 1) with 0 by ring; apply moved_0).
  rewrite (perturb_moves sz 1 (p j) _ HE HT) by (rewrite E2; exact A0). rewrite E2.
  eexists. split; [reflexivity|]. unfold over. split; intros o Ho.
  - apply Nat.ltb_lt in Ho. rewrite !Ho. unfold Rdiv. ring.
  - assert (Nat.ltb o no = false) as N by (apply Nat.ltb_ge; lia). rewrite !N. reflexivity.
Qed.
Lemma central_all : forall I1 nd old, admissible sz s ->
  (forall j, (j < nd)%nat -> admissible sz (moved sz s 1 (p j)) /\ admissible sz (moved sz s (-1) (p j)) /\
     (exists a, solve (moved sz s 1 (p j)) = Some a) /\ exists b, solve (moved sz s (-1) (p j)) = Some b) ->
  exists l, derivatives sz solve no true delta p CENTRAL I1 nd s old = Some (s, l, true) /\
    (forall j, (nd <= j)%nat -> l j = old j) /\
    forall j, (j < nd)%nat -> (forall o, (no <= o)%nat -> l j o = old j o) /\
      forall a b o, solve (moved sz s 1 (p j)) = Some a -> solve (moved sz s (-1) (p j)) = Some b -> (o < no)%nat -> l j o = (a o - b o) / delta j.
Proof.
  intros I1 nd old A0. induction nd as [|nd IH]; intros H.
  - exists old. refine (conj eq_refl (conj (fun _ _ => eq_refl) _)). intros j Hj. lia.
  - destruct IH as (l & E & L1 & L2); [intros j Hj; apply H; lia|]. destruct (H nd ltac:(lia)) as (A1 & A2 & (a & Sa) & (b & Sb)).
    destruct (central_one I1 nd (l nd) a b A0 A1 A2 Sa Sb) as (d & D & D1 & D2).
    exists (put nd d l). cbn [derivatives]. rewrite E, D. refine (conj eq_refl (conj _ _)).
    + intros j Hj. unfold put. destruct (Nat.eqb_spec j nd); [lia|]. apply L1. lia.
    + intros j Hj. unfold put. destruct (Nat.eqb_spec j nd) as [->|Nj]; [|apply L2; lia]. split.
      * intros o Ho. rewrite (D2 o Ho), L1 by lia. reflexivity.
      * intros a' b' o Ea Eb Ho. rewrite Sa in Ea. rewrite Sb in Eb. injection Ea as <-. injection Eb as <-. apply D1, Ho.
Qed.
(** Forward and backward: every perturbation stays. *)
Lemma one_sided_all : forall m f I1 nd old, (m = FORWARD /\ f = 1) \/ (m = BACKWARD /\ f = -1) ->
  (forall j, (j < nd)%nat -> admissible sz (moved_all sz s f p (S j)) /\ exists a, solve (moved_all sz s f p (S j)) = Some a) ->
  exists l, derivatives sz solve no true delta p m I1 nd s old = Some (moved_all sz s f p nd, l, true) /\
    (forall j, (nd <= j)%nat -> l j = old j) /\
    forall j, (j < nd)%nat -> (forall o, (no <= o)%nat -> l j o = old j o) /\
      forall a o, solve (moved_all sz s f p (S j)) = Some a -> (o < no)%nat -> l j o = (a o - I1 o) / delta j.
Proof.
  intros m f I1 nd old Hm. induction nd as [|nd IH]; intros H.
  - exists old. refine (conj eq_refl (conj (fun _ _ => eq_refl) _)). intros j Hj. lia.
  - destruct IH as (l & E & L1 & L2); [intros j Hj; apply H; lia|]. destruct (H nd ltac:(lia)) as (A1 & a & Sa).
    assert (derivative sz solve no true delta p m I1 nd (moved_all sz s f p nd) (l nd) =
            Some (moved_all sz s f p (S nd), over no (fun o => (a o - I1 o) / delta nd) (l nd), true)) as D.
    { cbn [moved_all] in *. unfold derivative. destruct Hm as [[-> ->]|[-> ->]]; rewrite (perturb_moves sz _ (p nd) _ HE HT A1); cbn [negb]; rewrite Sa; reflexivity. }
    exists (put nd (over no (fun o => (a o - I1 o) / delta nd) (l nd)) l). cbn [derivatives]. rewrite E, D. refine (conj eq_refl (conj _ _)).
    + intros j Hj. unfold put. destruct (Nat.eqb_spec j nd); [lia|]. apply L1. lia.
    + intros j Hj. unfold put. destruct (Nat.eqb_spec j nd) as [->|Nj]; [|apply L2; lia]. unfold over. split.
      * intros o Ho. apply Nat.ltb_ge in Ho. rewrite Ho, L1 by lia. reflexivity.
      * intros a' o Ea Ho. rewrite Sa in Ea. injection Ea as <-. apply Nat.ltb_lt in Ho. rewrite Ho. reflexivity.
Qed.
End Solution.
