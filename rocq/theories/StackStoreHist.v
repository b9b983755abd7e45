(** What the stacks hold after a solution, over a whole history. *)
From Coq Require Import List Bool Arith ZArith Lia.
From Verif Require Import Base StackModel StackProofs StackStoreModel StackStoreProofs.
Import ListNotations.
Open Scope nat_scope.

Definition vers (vr : nat -> nat) (a b : nat) : list nat := map vr (seq a (S b - a)).
Lemma vers_app vr a m b : a <= m -> m < b -> vers vr a m ++ vers vr (S m) b = vers vr a b.
Proof.
  intros H1 H2. unfold vers. rewrite <- map_app. f_equal. replace (S b - a) with ((S m - a) + (S b - S m)) by lia. rewrite seq_app. f_equal. f_equal. lia.
Qed.
Lemma nth_ext_error {A} : forall l l' : list A, (forall k, nth_error l k = nth_error l' k) -> l = l'.
Proof.
  induction l as [|a l IH]; intros [|b l'] H; [reflexivity | discriminate (H 0) | discriminate (H 0)|]. pose proof (H 0) as E. cbn in E. injection E as ->. f_equal. apply IH. intros k. exact (H (S k)).
Qed.
(** where a stack is split *)
Definition split_at (t : list stk) (x : stk) : option nat :=
  match parents x with Some (p, _) => match nth_error t p with Some y => Some (i2 y) | None => None end | None => None end.

Section Contents.
Variables (n nd : nat) (wa full : bool) (vr : nat -> nat) (dt : nat -> bool) (c : list held) (d : nat -> nat -> bool).
Hypothesis P : planned n nd c d.
Hypothesis U : NoDup (map arr c).

Definition good (f : nat -> content) (h : held) : Prop :=
  rt (f (arr h)) = Some (vers vr (i1 (hk h)) (i2 (hk h))) /\
  (wa = true -> forall m, split_at (map hk c) (hk h) = Some m -> ax (f (arr h)) = Some (m, vers vr (i1 (hk h)) (i2 (hk h)))).
Definition old_in (h : held) : Prop := exists l, i1 (hk h) <= l <= i2 (hk h) /\ dt l = true.
Definition fair (f : nat -> content) (k : nat) (h : held) : Prop := full = true \/ old_in h \/ (n <= k /\ fresh h = true) \/ good f h.

Lemma put_other a x f b : b <> a -> put a x f b = f b.
Proof. intros H. unfold put. apply Nat.eqb_neq in H. now rewrite H. Qed.
Lemma good_put a x f h : arr h <> a -> good f h -> good (put a x f) h.
Proof. intros H G. unfold good. now rewrite put_other. Qed.
Lemma fair_put a x f k h : arr h <> a -> fair f k h -> fair (put a x f) k h.
Proof. intros H [G|[G|[G|G]]]; unfold fair; auto using good_put. Qed.
Lemma apart i j a b : nth_error c i = Some a -> nth_error c j = Some b -> i <> j -> arr b <> arr a.
Proof. intros Ea Eb N E. apply N. symmetry. apply (nodup_get c j i b a U Eb Ea E). Qed.

Lemma solve_from_ok : forall rest i tch f, rest = skipn i c -> length tch = i -> i <= length c ->
  (forall k h, k < i -> nth_error c k = Some h -> good f h) ->
  (forall k h, nth_error tch k = Some false -> nth_error c k = Some h -> ~ old_in h /\ full = false) ->
  (forall k h, i <= k -> nth_error c k = Some h -> fair f k h) ->
  exists l f', solve_from n full vr dt c i tch rest f = Ok (l, f') /\ length l = length rest /\
    (forall k h, nth_error rest k = Some h -> nth_error l k = Some (if i + k <? n then h else used h)) /\
    (forall k h, nth_error c k = Some h -> good f' h).
Proof.
  induction rest as [|h rest IH]; intros i tch f ER LT LI G T F; cbn [solve_from].
  - exists [], f. split; [reflexivity|]. split; [reflexivity|]. split; [intros [|k] h E; discriminate|]. intros k h E. apply (G k h); [|exact E].
    assert (length (skipn i c) = 0) as Z by (rewrite <- ER; reflexivity). rewrite skipn_length in Z. assert (k < length c) by (apply nth_error_Some; congruence). lia.
  - assert (Ei : nth_error c i = Some h).
    { rewrite <- (firstn_skipn i c), <- ER, nth_error_app2; rewrite firstn_length; [|lia]. replace (i - Nat.min i (length c)) with 0 by lia. reflexivity. }
    assert (ER' : rest = skipn (S i) c).
    { change (S i) with (1 + i). rewrite Nat.add_comm, <- (firstn_skipn i c) at 1. rewrite <- ER. rewrite skipn_app, skipn_firstn_comm. rewrite firstn_length. assert (i < length c) by (apply nth_error_Some; congruence).
      replace (i + 1 - Nat.min i (length c)) with 1 by lia. replace (i - (i + 1)) with 0 by lia. reflexivity. }
    assert (LI' : S i <= length c) by (apply nth_error_Some; congruence).
    assert (LT' : forall b, length (tch ++ [b]) = S i) by (intros; rewrite app_length, LT; cbn; lia).
    assert (STEP : forall b f1 h1, (good f1 h) -> (forall k h', k <> i -> nth_error c k = Some h' -> good f h' -> good f1 h') -> (forall k h', k <> i -> nth_error c k = Some h' -> fair f k h' -> fair f1 k h') ->
       (b = false -> ~ old_in h /\ full = false) -> h1 = (if i <? n then h else used h) ->
       exists l f', match solve_from n full vr dt c (S i) (tch ++ [b]) rest f1 with Ok (l, f2) => Ok (h1 :: l, f2) | Err e => Err e | UB => UB end = Ok (l, f') /\ length l = length (h :: rest) /\
         (forall k h0, nth_error (h :: rest) k = Some h0 -> nth_error l k = Some (if i + k <? n then h0 else used h0)) /\ (forall k h0, nth_error c k = Some h0 -> good f' h0)).
    { intros b f1 h1 G1 G2 F2 T2 EH. destruct (IH (S i) (tch ++ [b]) f1 ER' (LT' b) LI') as (l & f' & E & L & R & Q).
      - intros k h' Lk Ek. destruct (Nat.eq_dec k i) as [->|NE]; [assert (h' = h) by congruence; subst h'; exact G1|]. apply (G2 k h' NE Ek). apply (G k h'); [lia | exact Ek].
      - intros k h' Tk Ek. destruct (le_lt_dec i k) as [Lk|Lk].
        + rewrite nth_error_app2 in Tk by lia. rewrite LT in Tk. destruct (k - i) as [|u] eqn:Z; cbn in Tk; [|destruct u; discriminate]. assert (k = i) by lia. subst k. assert (h' = h) by congruence. subst h'. apply T2. congruence.
        + rewrite nth_error_app1 in Tk by lia. exact (T k h' Tk Ek).
      - intros k h' Lk Ek. apply (F2 k h'); [lia | exact Ek | apply (F k h'); [lia | exact Ek]].
      - rewrite E. exists (h1 :: l), f'. split; [reflexivity|]. split; [cbn; now rewrite L|]. split; [|exact Q].
        intros [|k] h0 Ek; cbn in Ek |- *; [injection Ek as <-; rewrite EH, Nat.add_0_r; reflexivity|]. rewrite <- Nat.add_succ_comm. exact (R k h0 Ek). }
    assert (KEEP : forall (x : unit) k h', k <> i -> nth_error c k = Some h' -> arr h' <> arr h) by (intros _ k h' NE Ek; exact (apart i k h h' Ei Ek (not_eq_sym NE))).
    destruct (Nat.ltb_spec i n) as [L|L].
    + destruct (k_first n nd d _ P i L) as (x & Ex & X1 & X2 & X3). assert (x = hk h) by (rewrite (nth_hk _ _ _ Ei) in Ex; congruence). subst x.
      assert (V1 : vers vr (i1 (hk h)) (i2 (hk h)) = [vr i]) by (rewrite X1, X2; unfold vers; replace (S i - i) with 1 by lia; reflexivity).
      assert (NS : split_at (map hk c) (hk h) = None) by (unfold split_at; now rewrite X3).
      destruct (dt i || full) eqn:D.
      * apply STEP; auto; try discriminate.
        -- split; [unfold put; rewrite Nat.eqb_refl; cbn [rt]; now rewrite V1 | intros _ m Q; congruence].
        -- intros k h' NE Ek. apply good_put. apply (KEEP tt k h' NE Ek).
        -- intros k h' NE Ek. apply fair_put. apply (KEEP tt k h' NE Ek).
      * apply orb_false_iff in D. destruct D as [D1 D2]. apply STEP; auto.
        -- destruct (F i h (le_n i) Ei) as [Q|[(l & Hl & Q)|[[Q _]|Q]]]; [congruence | assert (l = i) by lia; congruence | lia | exact Q].
        -- intros _. split; [intros (l & Hl & Q); assert (l = i) by lia; congruence | exact D2].
    + destruct (k_rest n nd d _ P i (hk h) (nth_hk _ _ _ Ei) L) as (p & q & xp & xq & Ep & Lp & Lq & Exp & Exq & X1 & X2 & X3). rewrite Ep.
      destruct (nth_map_hk _ _ _ Exp) as (hp & Ehp & Khp). destruct (nth_map_hk _ _ _ Exq) as (hq & Ehq & Khq). rewrite Ehp, Ehq.
      destruct (nth_error tch p) as [tp|] eqn:Tp; [|apply nth_error_None in Tp; lia]. destruct (nth_error tch q) as [tq|] eqn:Tq; [|apply nth_error_None in Tq; lia].
      pose proof (k_rng n nd d _ P _ _ Exp) as Rp. pose proof (k_rng n nd d _ P _ _ Exq) as Rq.
      destruct (G p hp Lp Ehp) as [Gp _]. destruct (G q hq Lq Ehq) as [Gq _]. rewrite Gp, Gq, Khp, Khq. cbn [cat].
      assert (VV : vers vr (i1 xp) (i2 xp) ++ vers vr (i1 xq) (i2 xq) = vers vr (i1 (hk h)) (i2 (hk h))) by (rewrite X3, X1, X2; apply vers_app; lia). rewrite VV.
      assert (SP : split_at (map hk c) (hk h) = Some (i2 xp)) by (unfold split_at; now rewrite Ep, Exp).
      assert (LB : i <? n = false) by (now apply Nat.ltb_ge).
      destruct (negb (fresh h) && negb (tp || tq || fresh h || full)) eqn:D.
      * apply andb_true_iff in D. destruct D as [D1 D2]. apply negb_true_iff in D1, D2. apply orb_false_iff in D2. destruct D2 as [D2 D3]. apply orb_false_iff in D2. destruct D2 as [D2 _]. apply orb_false_iff in D2. destruct D2 as [-> ->].
        destruct (T p hp Tp Ehp) as [Op _]. destruct (T q hq Tq Ehq) as [Oq _].
        assert (NOLD : ~ old_in h).
        { intros (l & Hl & Q). destruct (le_lt_dec l (i2 xp)); [apply Op; exists l; rewrite Khp; split; [lia | exact Q] | apply Oq; exists l; rewrite Khq; split; [lia | exact Q]]. }
        apply STEP; auto.
        -- destruct (F i h (le_n i) Ei) as [Q|[Q|[[_ Q]|Q]]]; [congruence | contradiction | congruence | exact Q].
      * apply STEP.
        -- split; [unfold put; rewrite Nat.eqb_refl; reflexivity|]. intros _ m Q. unfold put. rewrite Nat.eqb_refl. cbn [ax]. congruence.
        -- intros k h' NE Ek. apply good_put. apply (KEEP tt k h' NE Ek).
        -- intros k h' NE Ek. apply fair_put. apply (KEEP tt k h' NE Ek).
        -- intros D2. rewrite D2 in D. rewrite andb_true_r in D. apply negb_false_iff in D. rewrite D, orb_true_r in D2. discriminate D2.
        -- reflexivity.
Qed.
End Contents.

(** ** Histories *)
Record cinv (n nd : nat) (wa full pending : bool) (s : store) : Prop := {
  c_mem : minv n nd s;
  c_none : chain s = None -> forall l, l < n -> dirty s l = true;
  c_fair : forall c k h, chain s = Some c -> nth_error c k = Some h -> fair n wa full (ver s) (dirty s) c (cont s) k h;
  c_set : forall c k h, chain s = Some c -> nth_error c k = Some h -> pending = false -> n <= k -> fresh h = false }.
Definition agree (n nd : nat) (d d' : nat -> nat -> bool) : Prop := forall t t' x x',
  build (n * n) n nd (S (n * nd)) d = Some (Ok t) -> build (n * n) n nd (S (n * nd)) d' = Some (Ok t') -> In x t -> In x' t' -> same_layers x x' = true -> split_at t x = split_at t' x'.

Lemma fair_wa n full vr dt c f k h : fair n true full vr dt c f k h -> fair n false full vr dt c f k h.
Proof. intros [Q|[Q|[Q|[Q _]]]]; unfold fair; auto. right. right. right. split; [exact Q | discriminate]. Qed.
Lemma start n nd wa full : cinv n nd wa full false store0.
Proof.
  split; [split; cbn; try discriminate; auto; try constructor| | |]; cbn; try discriminate; auto.
Qed.
Lemma touch_ok n nd wa full pending l s : cinv n nd wa full pending s -> cinv n nd wa full pending (touch l s).
Proof.
  intros [V N F S]. split.
  - destruct V. split; assumption.
  - cbn. intros C i Hi. destruct (Nat.eqb i l); [reflexivity | exact (N C i Hi)].
  - cbn. intros c k h C Ek. destruct (F c k h C Ek) as [Q|[Q|[Q|Q]]]; unfold fair; auto.
    + right. left. destruct Q as (i & Hi & Q). exists i. split; [exact Hi|]. destruct (Nat.eqb i l); [reflexivity | exact Q].
    + destruct (le_lt_dec (i1 (hk h)) l) as [L1|L1]; [destruct (le_lt_dec l (i2 (hk h))) as [L2|L2]|].
      * right. left. exists l. split; [lia|]. now rewrite Nat.eqb_refl.
      * right. right. right. unfold good in *. replace (vers (fun i => if Nat.eqb i l then Datatypes.S (ver s i) else ver s i) (i1 (hk h)) (i2 (hk h))) with (vers (ver s) (i1 (hk h)) (i2 (hk h))); [exact Q|].
        unfold vers. apply map_ext_in. intros i I. apply in_seq in I. assert (Nat.eqb i l = false) as -> by (apply Nat.eqb_neq; lia). reflexivity.
      * right. right. right. unfold good in *. replace (vers (fun i => if Nat.eqb i l then Datatypes.S (ver s i) else ver s i) (i1 (hk h)) (i2 (hk h))) with (vers (ver s) (i1 (hk h)) (i2 (hk h))); [exact Q|].
        unfold vers. apply map_ext_in. intros i I. apply in_seq in I. assert (Nat.eqb i l = false) as -> by (apply Nat.eqb_neq; lia). reflexivity.
  - exact S.
Qed.
Lemma solve_ok n nd wa full pending s c : cinv n nd wa full pending s -> chain s = Some c ->
  exists s' c', solve n full s = Ok s' /\ cinv n nd wa full false s' /\ chain s' = Some c' /\ map hk c' = map hk c /\ map arr c' = map arr c /\ ver s' = ver s /\
    forall k h, nth_error c' k = Some h -> good wa (ver s) c' (cont s') h.
Proof.
  intros [V N F S] C. unfold solve. rewrite C. destruct (v_plan n nd s V c C) as (d & EB & P). pose proof (v_arr n nd s V c C) as U.
  destruct (solve_from_ok n nd wa full (ver s) (dirty s) c d P U c 0 [] (cont s)) as (l & f & E & L & R & G); auto; try lia.
  { intros [|k] h Ek; discriminate. }
  rewrite E. eexists. exists l. split; [reflexivity|]. cbn [chain cont ver].
  assert (BK : forall k h', nth_error l k = Some h' -> exists h, nth_error c k = Some h /\ h' = (if k <? n then h else used h)).
  { intros k h' Ek. assert (k < length c) as Lk by (rewrite <- L; apply nth_error_Some; congruence). destruct (nth_error c k) as [h|] eqn:Eh; [|apply nth_error_None in Eh; lia].
    exists h. split; [reflexivity|]. rewrite (R k h Eh) in Ek. cbn [plus] in Ek. congruence. }
  assert (SAME : forall (k : nat) h (b : bool), hk (if b then h else used h) = hk h /\ arr (if b then h else used h) = arr h /\ alloc (if b then h else used h) = alloc h) by (intros k h [|]; cbn; auto).
  assert (MP : forall A (g : held -> A), (forall h, g (used h) = g h) -> map g l = map g c).
  { intros A g Hg. apply nth_ext_error. intros k. rewrite !nth_error_map. destruct (nth_error c k) as [h|] eqn:Eh.
    - rewrite (R k h Eh). destruct (0 + k <? n); cbn [option_map]; now rewrite ?Hg.
    - assert (nth_error l k = None) as -> by (apply nth_error_None; rewrite L; now apply nth_error_None). reflexivity. }
  assert (MH : map hk l = map hk c) by (now apply MP). assert (MA : map arr l = map arr c) by (now apply MP).
  assert (GG : forall k h, nth_error l k = Some h -> good wa (ver s) l f h).
  { intros k h' Ek. destruct (BK k h' Ek) as (h & Eh & ->). destruct (SAME k h (k <? n)) as (K1 & K2 & K3). unfold good. rewrite K1, K2, MH. exact (G k h Eh). }
  split; [|auto].
  split; cbn [chain cont ver dirty].
  - split; cbn [chain heap nxt].
    + discriminate.
    + intros c0 Q. injection Q as <-. exists d. unfold planned. rewrite MH. auto.
    + intros c0 k h' Q Ek. injection Q as <-. destruct (BK k h' Ek) as (h & Eh & ->). destruct (SAME k h (k <? n)) as (K1 & K2 & K3). rewrite K2, K3. exact (v_alloc n nd s V c k h C Eh).
    + intros c0 Q. injection Q as <-. now rewrite MA.
    + exact (v_heap n nd s V).
    + intros c0 b Q. injection Q as <-. rewrite (v_in n nd s V c b C). split.
      * intros (k & h & Ek & ->). exists k. eexists. split; [exact (R k h Ek)|]. destruct (SAME k h (0 + k <? n)) as (K1 & K2 & K3). now rewrite K2.
      * intros (k & h' & Ek & ->). destruct (BK k h' Ek) as (h & Eh & ->). exists k, h. split; [exact Eh|]. destruct (SAME k h (k <? n)) as (K1 & K2 & K3). now rewrite K2.
  - discriminate.
  - intros c0 k h' Q Ek. injection Q as <-. right. right. right. exact (GG k h' Ek).
  - intros c0 k h' Q Ek _ Lk. injection Q as <-. destruct (BK k h' Ek) as (h & Eh & ->). assert (k <? n = false) as -> by (now apply Nat.ltb_ge). reflexivity.
Qed.
Lemma upd_ok n nd wa full pending d s : cinv n nd wa full pending s -> pending = false -> (wa = true -> forall d' c, chain s = Some c -> build (n * n) n nd (S (n * nd)) d' = Some (Ok (map hk c)) -> agree n nd d' d) ->
  exists s', update n nd d s = Ok s' /\ cinv n nd wa full true s' /\ updated n nd d s s'.
Proof.
  intros [V N F S] PD AG. destruct (update_ok n nd d s V) as (s' & E & V' & UP). exists s'. split; [exact E|]. split; [|exact UP]. destruct UP as [(c' & C' & EB & W) UC UV UD]. split.
  - exact V'.
  - rewrite C'. discriminate.
  - intros c0 k h Q Ek. assert (c0 = c') by congruence. subst c0. rewrite UV, UD, UC. destruct (v_plan n nd s' V' c' C') as (d' & _ & P').
    pose proof (k_rng n nd d' _ P' _ _ (nth_hk _ _ _ Ek)) as RG.
    destruct (W k h Ek) as [(o & ii & ho & Co & Eo & So & Ar & Fr)|(NF & LE & Fr)].
    + pose proof (F o ii ho Co Eo) as FO. apply same_layers_eq in So as SS. destruct SS as [S1 S2].
      assert (SH : old_in (dirty s) ho -> old_in (dirty s) h) by (intros (l & Hl & Q1); exists l; rewrite <- S1, <- S2; auto).
      destruct FO as [Q1|[Q1|[[L1 Q1]|Q1]]]; [left; exact Q1 | right; left; auto | |].
      * rewrite (S o ii ho Co Eo PD L1) in Q1. discriminate.
      * right. right. right. destruct Q1 as [Q1 Q2]. destruct (v_alloc n nd s V o ii ho Co Eo) as [_ LT]. unfold good. rewrite Ar. assert (nxt s <=? arr ho = false) as -> by (apply Nat.leb_gt; exact LT).
        rewrite <- S1, <- S2. split; [exact Q1|]. intros HW m Hm. apply (Q2 HW). rewrite <- Hm. destruct (v_plan n nd s V o Co) as (d0 & EB0 & _).
        apply (AG HW d0 o Co EB0 (map hk o) (map hk c') (hk ho) (hk h) EB0 EB); [apply in_map; eapply nth_error_In; eauto | apply in_map; eapply nth_error_In; eauto | exact So].
    + destruct (le_lt_dec n k) as [L|L]; [right; right; left; auto|]. right. left.
      destruct (k_first n nd d' _ P' k L) as (x & Ex & X1 & X2 & _). assert (x = hk h) by (rewrite (nth_hk _ _ _ Ek) in Ex; congruence). subst x.
      destruct (chain s) as [o|] eqn:Co; [|exists k; split; [lia | exact (N eq_refl k L)]].
      destruct (v_plan n nd s V o Co) as (d0 & _ & P0). destruct (k_first n nd d0 _ P0 k L) as (y & Ey & Y1 & Y2 & _). destruct (nth_map_hk _ _ _ Ey) as (ho & Eho & Kho).
      specialize (NF o k ho eq_refl Eho). assert (same_layers (hk ho) (hk h) = true) by (apply same_layers_eq; rewrite Kho; lia). congruence.
  - discriminate.
Qed.

(** no update while an earlier one still waits for its solution *)
Fixpoint paced (pending : bool) (os : list sop) : bool :=
  match os with
  | [] => true
  | Update _ :: os => negb pending && paced true os
  | Solve :: os => paced false os
  | Touch _ :: os => paced pending os
  end.
Definition flags_in (os : list sop) (d : nat -> nat -> bool) : Prop := In (Update d) os.

Lemma run_mem n nd full : forall os s, minv n nd s -> exists s', srun n nd full os s = Ok s' /\ minv n nd s'.
Proof.
  induction os as [|o os IH]; intros s V; cbn [srun]; [eauto|]. destruct o as [d|l|]; cbn [sstep].
  - destruct (update_ok n nd d s V) as (s1 & -> & V1 & _). exact (IH s1 V1).
  - apply IH. destruct V. split; assumption.
  - destruct (chain s) as [c|] eqn:C.
    + destruct (solve_ok n nd false true true s c) as (s1 & c1 & E & Q & _); [|exact C|].
      * split; [exact V | rewrite C; discriminate | intros; left; reflexivity | discriminate].
      * destruct full; [rewrite E; exact (IH s1 (c_mem _ _ _ _ _ _ Q))|]. clear E Q.
        (* without a full rebuild: the same memory, other contents *)
        assert (K : exists s2, solve n false s = Ok s2 /\ minv n nd s2).
        { unfold solve. rewrite C. destruct (v_plan n nd s V c C) as (d & EB & P). pose proof (v_arr n nd s V c C) as U.
          assert (SF : forall rest i tch f, rest = skipn i c -> length tch = i -> exists l f', solve_from n false (ver s) (dirty s) c i tch rest f = Ok (l, f') /\ length l = length rest /\
             forall k h, nth_error rest k = Some h -> nth_error l k = Some (if i + k <? n then h else used h)).
          { induction rest as [|h rest IHr]; intros i tch f ER LT; cbn [solve_from].
            - exists [], f. split; [reflexivity|]. split; [reflexivity|]. intros [|k] h E; discriminate.
            - assert (LI : i < length c) by (assert (length (skipn i c) = S (length rest)) as Z by (now rewrite <- ER); rewrite skipn_length in Z; lia).
              assert (Ei : nth_error c i = Some h).
              { rewrite <- (firstn_skipn i c), <- ER, nth_error_app2; rewrite firstn_length; [|lia]. replace (i - Nat.min i (length c)) with 0 by lia. reflexivity. }
              assert (ER' : rest = skipn (S i) c).
              { change (S i) with (1 + i). rewrite Nat.add_comm, <- (firstn_skipn i c) at 1. rewrite <- ER. rewrite skipn_app, skipn_firstn_comm. rewrite firstn_length.
                replace (i + 1 - Nat.min i (length c)) with 1 by lia. replace (i - (i + 1)) with 0 by lia. reflexivity. }
              assert (STEP : forall b f1 h1, h1 = (if i <? n then h else used h) -> exists l f', match solve_from n false (ver s) (dirty s) c (S i) (tch ++ [b]) rest f1 with Ok (l, f2) => Ok (h1 :: l, f2) | Err e => Err e | UB => UB end = Ok (l, f') /\
                 length l = length (h :: rest) /\ forall k h0, nth_error (h :: rest) k = Some h0 -> nth_error l k = Some (if i + k <? n then h0 else used h0)).
              { intros b f1 h1 EH. destruct (IHr (S i) (tch ++ [b]) f1 ER') as (l & f' & -> & L & R); [rewrite app_length, LT; cbn; lia|]. exists (h1 :: l), f'. split; [reflexivity|]. split; [cbn; now rewrite L|].
                intros [|k] h0 Ek; cbn in Ek |- *; [injection Ek as <-; rewrite EH, Nat.add_0_r; reflexivity|]. rewrite <- Nat.add_succ_comm. exact (R k h0 Ek). }
              destruct (Nat.ltb_spec i n) as [L|L]; [now apply STEP|].
              destruct (k_rest n nd d _ P i (hk h) (nth_hk _ _ _ Ei) L) as (p & q & xp & xq & Ep & Lp & Lq & Exp & Exq & _). rewrite Ep.
              destruct (nth_map_hk _ _ _ Exp) as (hp & Ehp & Khp). destruct (nth_map_hk _ _ _ Exq) as (hq & Ehq & Khq). rewrite Ehp, Ehq.
              destruct (nth_error tch p) as [tp|] eqn:Tp; [|apply nth_error_None in Tp; lia]. destruct (nth_error tch q) as [tq|] eqn:Tq; [|apply nth_error_None in Tq; lia]. now apply STEP. }
          destruct (SF c 0 [] (cont s) eq_refl eq_refl) as (l & f & -> & L & R). eexists. split; [reflexivity|].
          assert (BK : forall k h', nth_error l k = Some h' -> exists h, nth_error c k = Some h /\ hk h' = hk h /\ arr h' = arr h /\ alloc h' = alloc h).
          { intros k h' Ek. assert (k < length c) as Lk by (rewrite <- L; apply nth_error_Some; congruence). destruct (nth_error c k) as [h|] eqn:Eh; [|apply nth_error_None in Eh; lia].
            exists h. split; [reflexivity|]. rewrite (R k h Eh) in Ek. destruct (0 + k <? n); injection Ek as <-; cbn [hk arr alloc used]; auto. }
          assert (MP : forall A (g : held -> A), (forall h, g (used h) = g h) -> map g l = map g c).
          { intros A g Hg. apply nth_ext_error. intros k. rewrite !nth_error_map. destruct (nth_error c k) as [h|] eqn:Eh.
            - rewrite (R k h Eh). destruct (0 + k <? n); cbn [option_map]; now rewrite ?Hg.
            - assert (nth_error l k = None) as -> by (apply nth_error_None; rewrite L; now apply nth_error_None). reflexivity. }
          split; cbn [chain heap nxt].
          - discriminate.
          - intros c0 Q. injection Q as <-. exists d. unfold planned. rewrite (MP _ hk) by auto. auto.
          - intros c0 k h' Q Ek. injection Q as <-. destruct (BK k h' Ek) as (h & Eh & _ & K2 & K3). rewrite K2, K3. exact (v_alloc n nd s V c k h C Eh).
          - intros c0 Q. injection Q as <-. rewrite (MP _ arr) by auto. exact U.
          - exact (v_heap n nd s V).
          - intros c0 b Q. injection Q as <-. rewrite (v_in n nd s V c b C). split.
            + intros (k & h & Ek & ->). exists k. eexists. split; [exact (R k h Ek)|]. now destruct (0 + k <? n).
            + intros (k & h' & Ek & ->). destruct (BK k h' Ek) as (h & Eh & _ & K2 & _). exists k, h. rewrite K2. auto. }
        destruct K as (s2 & -> & V2). exact (IH s2 V2).
    + unfold solve. rewrite C. exact (IH s V).
Qed.
Lemma run_cinv n nd wa full : forall os pending s, cinv n nd wa full pending s -> (full = true \/ paced pending os = true) ->
  (wa = true -> full = false -> forall d d', flags_in os d -> flags_in os d' -> agree n nd d d') ->
  (wa = true -> full = false -> forall c, chain s = Some c -> exists d, build (n * n) n nd (S (n * nd)) d = Some (Ok (map hk c)) /\ forall d', flags_in os d' -> agree n nd d d') ->
  exists s' pending', srun n nd full os s = Ok s' /\ cinv n nd wa full pending' s'.
Proof.
  induction os as [|o os IH]; intros pending s CI PC AG AS; cbn [srun]; [eauto|]. destruct o as [d|l|]; cbn [sstep].
  - destruct full.
    + destruct CI as [V N F S]. destruct (update_ok n nd d s V) as (s1 & -> & V1 & UP). destruct UP as [(c1 & C1 & EB & _) _ _ _]. apply (IH true).
      * split; [exact V1 | rewrite C1; discriminate | intros; left; reflexivity | discriminate].
      * auto.
      * discriminate.
      * discriminate.
    + destruct PC as [PC|PC]; [discriminate|]. cbn in PC. apply andb_true_iff in PC. destruct PC as [P1 P2]. apply negb_true_iff in P1.
      destruct (upd_ok n nd wa false pending d s CI P1) as (s1 & -> & C1 & UP).
      * intros HW d0 c C EB. destruct (AS HW eq_refl c C) as (d1 & EB1 & A1). specialize (A1 d (or_introl eq_refl)). intros t t' x x' Et Et' Ix Ix' SL.
        assert (t = map hk c) by congruence. subst t. exact (A1 (map hk c) t' x x' EB1 Et' Ix Ix' SL).
      * destruct UP as [(c1 & Cc & EB & _) _ _ _]. apply (IH true s1 C1); [auto| |].
        -- intros HW HF a b Ia Ib. apply (AG HW HF a b); now right.
        -- intros HW HF c Cs. assert (c = c1) by congruence. subst c. exists d. split; [exact EB|]. intros d' Id. apply (AG HW HF d d'); [now left | now right].
  - apply (IH pending); [now apply touch_ok | exact PC | intros HW HF a b Ia Ib; apply (AG HW HF a b); now right |].
    intros HW HF c Cs. destruct (AS HW HF c Cs) as (d & E & A). exists d. split; [exact E|]. intros d' Id. apply A. now right.
  - destruct (chain s) as [c|] eqn:C.
    + destruct (solve_ok n nd wa full pending s c CI C) as (s1 & c1 & -> & C1 & Cc & MH & _). apply (IH false s1 C1); [exact PC | intros HW HF a b Ia Ib; apply (AG HW HF a b); now right |].
      intros HW HF c0 Cs. assert (c0 = c1) by congruence. subst c0. rewrite MH. destruct (AS HW HF c eq_refl) as (d & E & A). exists d. split; [exact E|]. intros d' Id. apply A. now right.
    + unfold solve. rewrite C. apply (IH false).
      * destruct CI as [V N F S]. split; [exact V | exact N | exact F | rewrite C; discriminate].
      * exact PC.
      * intros HW HF a b Ia Ib; apply (AG HW HF a b); now right.
      * intros HW HF c Cs. rewrite C in Cs. discriminate.
Qed.
