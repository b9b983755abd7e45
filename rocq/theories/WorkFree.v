(** Freeing the work memory, and how large it can get. *)
From Coq Require Import List Bool ZArith Lia FinFun.
From Verif Require Import Base WorkModel WorkProofs FourierProofs.
Import ListNotations.
Open Scope Z_scope.

Lemma free_all_ok : forall bs h, NoDup bs -> (forall o, In o bs -> exists b, o = Some b /\ In b (map fst (inuse h))) -> NoDup (map fst (inuse h)) ->
  exists h', free_all bs h = Ok h' /\ forall c n, In (c, n) (inuse h') <-> In (c, n) (inuse h) /\ ~ In (Some c) bs.
Proof.
  induction bs as [|o bs IH]; intros h N H D; cbn [free_all].
  - exists h. split; [reflexivity|]. intros; cbn; tauto.
  - inversion N as [|? ? N1 N2]; subst. destruct (H o (or_introl eq_refl)) as (b & -> & I).
    destruct (free_inuse h b I) as (h1 & E & _ & U & D1). rewrite E.
    destruct (IH h1 N2) as (h' & E' & U'); [|now apply D1|].
    + intros o J. destruct (H o (or_intror J)) as (c & -> & K). exists c. split; [reflexivity|].
      apply in_map_iff in K. destruct K as ([c' n] & Ec & K). cbn in Ec. subst c'. apply in_map_iff. exists (c, n). split; [reflexivity|].
      apply U. split; [exact K|]. intros ->. contradiction.
    + exists h'. split; [exact E'|]. intros c n. rewrite U', U. cbn [In]. intuition congruence.
Qed.

(** The places work_free goes through *)
Definition locs (ts : list wtype) (w : shared) : list loc :=
  flat_map (fun i => if 0 <? pbytes (pages w i) then [LP i] else []) page_range ++
  flat_map (fun t => map (LL t) (seq 0 (length (entries (lists w t))))) ts ++
  flat_map (fun v => map (LV v) (seq 0 (length (entries (listsv w v))))) vtypes.
Lemma map_seq {A} (l : list A) : map Some l = map (nth_error l) (seq 0 (length l)).
Proof.
  induction l as [|a l IH]; [reflexivity|]. cbn [map length seq nth_error]. f_equal. rewrite IH, <- seq_shift, map_map. reflexivity.
Qed.
Lemma owned_locs ts w : owned_pages w ++ owned_lists ts w ++ owned_listsv w = map (at_ w) (locs ts w).
Proof.
  unfold locs, owned_pages, owned_lists, owned_listsv. rewrite !map_app. f_equal; [|f_equal].
  - induction page_range as [|i l IH]; [reflexivity|]. cbn [flat_map]. rewrite map_app, <- IH. f_equal. now destruct (0 <? pbytes (pages w i)).
  - induction ts as [|t l IH]; [reflexivity|]. cbn [flat_map]. rewrite map_app, <- IH. f_equal. now rewrite map_map, map_seq.
  - induction vtypes as [|t l IH]; [reflexivity|]. cbn [flat_map]. rewrite map_app, <- IH. f_equal. now rewrite map_map, map_seq.
Qed.
Lemma in_page_range i : In i page_range <-> pow i.
Proof.
  unfold page_range, pow. rewrite in_map_iff. split.
  - intros (k & <- & I). apply in_seq in I. unfold WORK_MAX_PAGES in *. lia.
  - intros H. exists (Z.to_nat i). split; [lia|]. apply in_seq. unfold WORK_MAX_PAGES in *. lia.
Qed.
Lemma in_locs d ts w l : winv d w -> In l (locs ts w) <-> (exists b, at_ w l = Some b) /\ match l with LL t _ => In t ts | _ => True end.
Proof.
  intros W. unfold locs. rewrite !in_app_iff, !in_flat_map. split.
  - intros [(i & Hi & I)|[(t & Ht & I)|(v & Hv & I)]].
    + destruct (Z.ltb_spec 0 (pbytes (pages w i))); [|destruct I]. destruct I as [<-|[]]. cbn. split; [|exact Logic.I].
      destruct (pblock (pages w i)) as [b|] eqn:E; [now exists b|]. apply (w_none d w W) in E. lia.
    + apply in_map_iff in I. destruct I as (k & <- & I). apply in_seq in I. cbn. split; [|exact Ht].
      destruct (nth_error (entries (lists w t)) k) as [b|] eqn:N; [now exists b | apply nth_error_None in N; lia].
    + apply in_map_iff in I. destruct I as (k & <- & I). apply in_seq in I. cbn. split; [|exact Logic.I].
      destruct (nth_error (entries (listsv w v)) k) as [b|] eqn:N; [now exists b | apply nth_error_None in N; lia].
  - destruct l as [i|t k|v k]; cbn; intros [[b E] H].
    + left. exists i. assert (pbytes (pages w i) <> 0) by (intros K; apply (w_none d w W) in K; congruence).
      split; [apply in_page_range; destruct (Z_le_gt_dec 0 i), (Z_lt_ge_dec i WORK_MAX_PAGES); try (split; lia); exfalso; apply H0, (w_range d w W); unfold pow; lia|].
      pose proof (w_pos d w W i). destruct (Z.ltb_spec 0 (pbytes (pages w i))); [now left | lia].
    + right. left. exists t. split; [exact H|]. apply in_map, in_seq. assert (nth_error (entries (lists w t)) k <> None) by congruence. apply nth_error_Some in H0. lia.
    + right. right. exists v. split; [destruct v; cbn; tauto|]. apply in_map, in_seq. assert (nth_error (entries (listsv w v)) k <> None) by congruence. apply nth_error_Some in H0. lia.
Qed.
Lemma nodup_app {A} (p q : list A) : NoDup p -> NoDup q -> (forall x, In x p -> ~ In x q) -> NoDup (p ++ q).
Proof.
  induction p as [|x p IH]; intros Np Nq Hd; [exact Nq|]. inversion_clear Np. cbn. constructor.
  - rewrite in_app_iff. intros [K|K]; [auto|]. apply (Hd x); [left; auto|auto].
  - apply IH; auto. intros y Hy. apply Hd. now right.
Qed.
Lemma nodup_locs ts w : NoDup ts -> NoDup (locs ts w).
Proof.
  intros N. unfold locs. apply nodup_app; [|apply nodup_app|].
  - apply nodup_flat.
    + apply Injective_map_NoDup; [intros x y; lia | apply seq_NoDup].
    + intros i _. destruct (0 <? pbytes (pages w i)); repeat constructor; auto.
    + intros a b x _ _ P Q. destruct (0 <? pbytes (pages w a)); [|destruct P]. destruct (0 <? pbytes (pages w b)); [|destruct Q].
      destruct P as [<-|[]], Q as [Q|[]]. now injection Q.
  - apply nodup_flat; [exact N| |].
    + intros t _. apply Injective_map_NoDup; [intros x y E; now injection E | apply seq_NoDup].
    + intros a b x _ _ P Q. apply in_map_iff in P, Q. destruct P as (? & <- & _), Q as (? & Q & _). now injection Q.
  - apply nodup_flat.
    + repeat constructor; cbn; intuition discriminate.
    + intros t _. apply Injective_map_NoDup; [intros x y E; now injection E | apply seq_NoDup].
    + intros a b x _ _ P Q. apply in_map_iff in P, Q. destruct P as (? & <- & _), Q as (? & Q & _). now injection Q.
  - intros x P Q. apply in_flat_map in P, Q. destruct P as (a & _ & P), Q as (b & _ & Q). apply in_map_iff in P, Q. destruct P as (? & <- & _), Q as (? & Q & _). discriminate.
  - intros x P Q. apply in_flat_map in P. destruct P as (a & _ & P). destruct (0 <? pbytes (pages w a)); [|destruct P]. destruct P as [<-|[]].
    apply in_app_iff in Q. destruct Q as [Q|Q]; apply in_flat_map in Q; destruct Q as (b & _ & Q); apply in_map_iff in Q; destruct Q as (? & Q & _); discriminate.
Qed.
Lemma nodup_map_inj {A B} (f : A -> B) l : (forall x y, In x l -> In y l -> f x = f y -> x = y) -> NoDup l -> NoDup (map f l).
Proof.
  intros H. induction 1 as [|x l N1 N2 IH]; cbn; constructor.
  - intros I. apply in_map_iff in I. destruct I as (y & E & I). apply N1. rewrite (H x y); auto; [now left | now right].
  - apply IH. intros a b I J. apply H; now right.
Qed.
Lemma work_free_ok d w : winv d w -> exists h, work_free w = Ok h /\
  forall c n, In (c, n) (inuse h) <-> exists k, nth_error (entries (lists w DQQ)) k = Some c /\ n = asize d DQQ.
Proof.
  intros W. unfold work_free. rewrite owned_locs.
  assert (NT : NoDup freed_types) by (repeat constructor; cbn; intuition discriminate).
  destruct (free_all_ok (map (at_ w) (locs freed_types w)) (hp w)) as (h & E & U).
  - apply nodup_map_inj; [|now apply nodup_locs]. intros x y I J Exy.
    apply (in_locs d) in I; [|exact W]. destruct I as [[b Eb] _]. eapply (w_inj d w W); [exact Eb | congruence].
  - intros o I. apply in_map_iff in I. destruct I as (l & <- & I). apply (in_locs d) in I; [|exact W]. destruct I as [[b Eb] _].
    exists b. split; [exact Eb|]. apply in_map_iff. exists (b, lsize d w l). split; [reflexivity | now apply (w_use d w W)].
  - apply (w_dup d w W).
  - exists h. split; [exact E|]. intros c n. rewrite U. split.
    + intros [I J]. destruct (w_own d w W c n I) as [l L]. destruct (in_dec loc_dec l (locs freed_types w)) as [K|K].
      * exfalso. apply J. rewrite <- L. now apply in_map.
      * destruct l as [i|t k|v k]; try (exfalso; apply K; apply (in_locs d); [exact W|]; split; [now exists c | exact Logic.I]).
        assert (t = DQQ) as ->.
        { destruct t; try reflexivity; exfalso; apply K; apply (in_locs d); (exact W || (split; [now exists c | cbn; tauto])). }
        exists k. split; [exact L|]. pose proof (w_use d w W _ _ L) as I'. cbn [lsize] in I'.
        assert (X : forall (u : list (nat * Z)) a b c, NoDup (map fst u) -> In (a, b) u -> In (a, c) u -> b = c).
        { clear. induction u as [|[x y] u IH]; intros a b c N P Q; [destruct P|]. cbn in N. inversion N; subst.
          destruct P as [P|P], Q as [Q|Q]; [congruence | | | eapply IH; eauto].
          - injection P as <- <-. exfalso. apply H1. apply in_map_iff. exists (x, c). auto.
          - injection Q as <- <-. exfalso. apply H1. apply in_map_iff. exists (x, b). auto. }
        eapply X; [apply (w_dup d w W) | exact I | exact I'].
    + intros (k & N & ->). split; [exact (w_use d w W (LL DQQ k) c N)|]. intros I. apply in_map_iff in I. destruct I as (l & L & I).
      apply (in_locs d) in I; [|exact W]. destruct I as [_ I]. assert (l = LL DQQ k) by (eapply (w_inj d w W); [exact L | exact N]). subst l. cbn in I. intuition discriminate.
Qed.

(** * How large it can get *)
Definition total (h : heap) : Z := fold_right (fun e a => snd e + a) 0 (inuse h).
Definition psize (d : dims) (M : Z) : Z := Z.max (min_page d) (round M).
Record small (d : dims) (M : Z) (K : wtype -> nat) (KV : vtype -> nat) (w : shared) : Prop := {
  sm_page : forall i, pbytes (pages w i) <= psize d M;
  sm_list : forall t, (length (entries (lists w t)) <= K t)%nat;
  sm_listv : forall v, (length (entries (listsv w v)) <= KV v)%nat }.
Lemma round_mono a b : 0 <= a -> a <= b -> round a <= round b.
Proof.
  intros H L. unfold round, WORK_ALIGNMENT. pose proof (Z.div_mod a 16 ltac:(lia)). pose proof (Z.div_mod b 16 ltac:(lia)).
  pose proof (Z.mod_pos_bound a 16 ltac:(lia)). pose proof (Z.mod_pos_bound b 16 ltac:(lia)). pose proof (Z.div_le_mono a b 16 ltac:(lia) L).
  destruct (Z.eqb_spec (a mod 16) 0), (Z.eqb_spec (b mod 16) 0); cbn [negb]; lia.
Qed.
Lemma renew_pages d w i len w' : renew d w i len = Ok w' ->
  (forall j, pages w' j = pages w j \/ pbytes (pages w' j) = Z.max (min_page d) len) /\ lists w' = lists w /\ listsv w' = listsv w.
Proof.
  unfold renew. destruct (free (pblock (pages w i)) (hp w)) as [h| |]; try discriminate. cbn [malloc]. intros H. injection H as <-. cbn.
  split; [|auto]. intros j. destruct (i =? j); cbn; auto.
Qed.
Lemma page_small d M K KV w p n w' p' rs : 0 <= n <= M -> small d M K KV w -> get_page d w p n = Ok (w', p', rs) -> small d M K KV w'.
Proof.
  intros Hn S. assert (R : Z.max (min_page d) (round n) <= psize d M) by (unfold psize; pose proof (round_mono n M ltac:(lia) ltac:(lia)); lia).
  assert (REN : forall i w', renew d w i (round n) = Ok w' -> small d M K KV w').
  { intros i w1 E. destruct (renew_pages _ _ _ _ _ E) as (A & L & V). split; [|rewrite L; apply S|rewrite V; apply S].
    intros j. destruct (A j) as [->| ->]; [apply S | exact R]. }
  unfold get_page, get_common. set (len := round n) in *.
  destruct ((ibyte p =? 0) && (pbytes (pages w (ipage p)) =? 0)).
  - cbn [malloc]. intros H. injection H as <- _ _. split; cbn; [|apply S|apply S]. intros j. destruct (ipage p =? j); cbn; [exact R | apply S].
  - destruct ((ibyte p =? 0) && (pbytes (pages w (ipage p)) <? len)).
    + destruct (renew d w (ipage p) len) eqn:E; try discriminate. intros H. injection H as <- _ _. eapply REN; eauto.
    + destruct (pbytes (pages w (ipage p)) <? ibyte p + len); [|intros H; injection H as <- _ _; exact S].
      destruct (WORK_MAX_PAGES <=? ipage p + 1); [discriminate|].
      destruct (pbytes (pages w (ipage p + 1)) <? len); [|intros H; injection H as <- _ _; exact S].
      destruct (renew d w (ipage p + 1) len) eqn:E; try discriminate. intros H. injection H as <- _ _. eapply REN; eauto.
Qed.
Lemma get1_small d M K KV w p t w' p' rs : prange w p -> (forall t, ilist p' t <= K t)%nat -> small d M K KV w -> get1 d w p t = Ok (w', p', rs) -> small d M K KV w'.
Proof.
  intros (_ & _ & R & _) H S. unfold get1, new_entry. destruct (Nat.leb_spec (length (entries (lists w t))) (ilist p t)) as [L|L].
  - cbn [malloc]. unfold write. rewrite check_entries.
    destruct (Nat.eqb_spec (ilist p t) (length (entries (lists w t)))) as [Q|Q]; cbn [andb]; [|discriminate].
    destruct (_ <? _); [|discriminate]. unfold entry. destruct (nth_error _ _); [|discriminate]. intros E. injection E as <- <- _.
    split; cbn; [apply S| |apply S]. intros t'. specialize (H t'). cbn in H. destruct (wtype_eqb t t') eqn:T; [|apply S].
    apply wtype_eqb_eq in T. subst t'. cbn. rewrite app_length. cbn [length]. lia.
  - unfold entry. destruct (nth_error _ _); [|discriminate]. intros E. injection E as <- <- _. exact S.
Qed.
Lemma fill_len size k : forall h l h' l', fill size k h l = Ok (h', l') -> length (entries l') = (length (entries l) + k)%nat.
Proof.
  induction k as [|k IH]; intros h l h' l'; cbn [fill malloc]; [intros E; injection E as <- <-; lia|].
  unfold write. rewrite Nat.eqb_refl. cbn [andb]. destruct (_ <? _); [|discriminate]. intros E. apply IH in E. rewrite E. cbn. rewrite app_length. cbn. lia.
Qed.
Lemma getv_small d M K KV w p v t k w' p' rs : prange w p -> (forall t, ilist p' t <= K t)%nat -> (forall v, ilistv p' v <= KV v)%nat ->
  small d M K KV w -> getv d w p v t k = Ok (w', p', rs) -> small d M K KV w'.
Proof.
  intros (_ & _ & R & RV) H HV S. unfold getv.
  assert (PP : forall w1 w2 b rs', (w1, advv (adv p t k) v, whole b (vsize d v) :: rs') = (w', p', rs) -> w2 = w1 -> small d M K KV w2 -> small d M K KV w').
  { intros w1 w2 b rs' E -> Q. injection E as <- _ _. exact Q. }
  destruct (if Nat.leb (length (entries (listsv w v))) (ilistv p v) then _ else _) as [w1| |] eqn:E1; try discriminate.
  destruct (if Z.of_nat (length (entries (lists w1 t))) <=? _ then _ else _) as [w2| |] eqn:E2; try discriminate.
  unfold entry. destruct (nth_error _ _); [|discriminate]. destruct (take _ _ _ _); try discriminate. intros E. injection E as <- <- _.
  specialize (H t). specialize (HV v). cbn in H, HV. rewrite wtype_eqb_refl in H. rewrite vtype_eqb_refl in HV.
  assert (S1 : small d M K KV w1 /\ lists w1 = lists w).
  { destruct (Nat.leb_spec (length (entries (listsv w v))) (ilistv p v)) as [L|L]; [|injection E1 as <-; auto].
    unfold new_entry in E1. cbn [malloc] in E1. unfold write in E1. rewrite check_entries in E1.
    destruct (Nat.eqb_spec (ilistv p v) (length (entries (listsv w v)))) as [Q|Q]; cbn [andb] in E1; [|discriminate].
    destruct (_ <? _) in E1; [|discriminate]. injection E1 as <-. split; [|reflexivity]. split; cbn; [apply S|apply S|].
    intros v'. destruct (vtype_eqb v v') eqn:T; [|apply S]. apply vtype_eqb_eq in T. subst v'. cbn. rewrite app_length. cbn [length]. lia. }
  destruct S1 as [S1 EL].
  destruct (Z.leb_spec (Z.of_nat (length (entries (lists w1 t)))) (Z.of_nat (ilist p t) + Z.of_nat k - 1)) as [L|L]; [|injection E2 as <-; exact S1].
  destruct (fill _ _ _ _) as [[h l]| |] eqn:F; try discriminate. injection E2 as <-. apply fill_len in F. rewrite check_entries in F.
  split; cbn; [apply S1| |apply S1]. intros t'. destruct (wtype_eqb t t') eqn:T; [|apply S1]. apply wtype_eqb_eq in T. subst t'. rewrite F.
  rewrite EL in *. specialize (R t). lia.
Qed.

Lemma sum_incl : forall (u v : list (nat * Z)), NoDup u -> (forall e, In e v -> 0 <= snd e) -> incl u v ->
  fold_right (fun e a => snd e + a) 0 u <= fold_right (fun e a => snd e + a) 0 v.
Proof.
  induction u as [|e u IH]; intros v N P I.
  - cbn. clear - P. induction v as [|e v IH]; cbn; [lia|]. pose proof (P e (or_introl eq_refl)). assert (0 <= fold_right (fun e a => snd e + a) 0 v) by (apply IH; intros; apply P; now right). lia.
  - inversion N; subst. destruct (in_split e v (I e (or_introl eq_refl))) as (v1 & v2 & ->).
    assert (Q : fold_right (fun e a => snd e + a) 0 u <= fold_right (fun e a => snd e + a) 0 (v1 ++ v2)).
    { apply IH; [assumption | |]. - intros x J. apply P. apply in_app_iff. apply in_app_iff in J. cbn. tauto.
      - intros x J. specialize (I x (or_intror J)). apply in_app_iff in I. apply in_app_iff. cbn in I. destruct I as [I|[<-|I]]; auto. contradiction. }
    rewrite !fold_right_app in *. cbn [fold_right].
    assert (X : forall a b (l : list (nat * Z)), fold_right (fun e a => snd e + a) (a + b) l = a + fold_right (fun e a => snd e + a) b l).
    { clear. intros a b l. induction l; cbn; lia. }
    rewrite X. lia.
Qed.
Definition tsum (K : wtype -> nat) (d : dims) : Z := fold_right (fun t a => Z.of_nat (K t) * asize d t + a) 0 wtypes.
Definition vsum (K : vtype -> nat) (d : dims) : Z := fold_right (fun t a => Z.of_nat (K t) * vsize d t + a) 0 vtypes.
Definition dims_ok (d : dims) : Prop := 0 < n_quad_v d /\ 0 <= n_quad_v_x d /\ 0 <= n_stokes d /\ 0 <= n_derivs d /\ 0 <= n_layers d /\ 0 <= n_umus_v d.
Lemma asize_nonneg d t : dims_ok d -> 0 <= asize d t.
Proof. intros (A & B & C & D & E & F). destruct t; cbn [asize]; unfold mem1, mem2; nia. Qed.
Lemma vsize_nonneg d t : dims_ok d -> 0 <= vsize d t.
Proof. intros (A & B & C & D & E & F). destruct t; cbn [vsize]; unfold mem1, mem2; nia. Qed.
Lemma min_page_pos d : dims_ok d -> 0 < min_page d.
Proof. intros (A & B & C & D & E & F). unfold min_page. destruct (Z.ltb_spec 0 (n_derivs d)); nia. Qed.
Lemma total_small d M K KV w : dims_ok d -> winv d w -> small d M K KV w ->
  total (hp w) <= WORK_MAX_PAGES * psize d M + tsum K d + vsum KV d.
Proof.
  intros D W S. set (L := map (fun l => (match at_ w l with Some b => b | None => O end, lsize d w l)) (locs wtypes w)).
  assert (I : total (hp w) <= fold_right (fun e a => snd e + a) 0 L).
  { apply sum_incl.
    - pose proof (w_dup d w W) as N. clear - N. induction (inuse (hp w)) as [|[b n] u IH]; cbn in N; inversion N; subst; constructor; auto.
      intros I. apply H1. apply in_map_iff. exists (b, n). auto.
    - intros e H. apply in_map_iff in H. destruct H as (l & <- & _). cbn. destruct l; cbn; [apply (w_pos d w W) | now apply asize_nonneg | now apply vsize_nonneg].
    - intros [b n] H. destruct (w_own d w W b n H) as [l E]. apply in_map_iff. exists l. rewrite E. split.
      + f_equal. pose proof (w_use d w W l b E) as H'. pose proof (w_dup d w W) as N. clear - H H' N.
        induction (inuse (hp w)) as [|[x y] u IH]; [destruct H|]. cbn in N. inversion N; subst.
        destruct H as [P|P], H' as [Q|Q]; [congruence | | | now apply IH].
        * injection P as <- <-. exfalso. apply H2. apply in_map_iff. eexists. split; [|exact Q]. reflexivity.
        * exfalso. apply H2. apply in_map_iff. exists (b, n). split; [|exact P]. cbn. congruence.
      + apply (in_locs d); [exact W|]. split; [now exists b|]. destruct l as [|[]|]; cbn; tauto. }
  assert (A : forall (f : Z -> Z) (l m : list loc), fold_right (fun e a => snd e + a) 0 (map (fun l => (match at_ w l with Some b => b | None => O end, lsize d w l)) (l ++ m)) =
    fold_right (fun e a => snd e + a) 0 (map (fun l => (match at_ w l with Some b => b | None => O end, lsize d w l)) l) +
    fold_right (fun e a => snd e + a) 0 (map (fun l => (match at_ w l with Some b => b | None => O end, lsize d w l)) m)).
  { intros _ l m. induction l; cbn [app map fold_right]; [lia|]. rewrite IHl. lia. }
  unfold L, locs in I. rewrite !(A (fun x => x)) in I. clear L.
  set (SUM := fun l : list loc => fold_right (fun e a => snd e + a) 0 (map (fun l => (match at_ w l with Some b => b | None => O end, lsize d w l)) l)) in *.
  assert (AS : forall l m, SUM (l ++ m) = SUM l + SUM m) by (intros; apply (A (fun x => x))).
  assert (P0 : 0 <= psize d M) by (pose proof (min_page_pos d D); unfold psize; lia).
  assert (P : SUM (flat_map (fun i => if 0 <? pbytes (pages w i) then [LP i] else []) page_range) <= WORK_MAX_PAGES * psize d M).
  { assert (E : Z.of_nat (length page_range) = WORK_MAX_PAGES) by (unfold page_range; rewrite map_length, seq_length; unfold WORK_MAX_PAGES; lia).
    rewrite <- E. clear E I. induction page_range as [|i l IH]; [cbn; lia|]. cbn [flat_map]. rewrite AS. cbn [length].
    assert (SUM (if 0 <? pbytes (pages w i) then [LP i] else []) <= psize d M).
    { pose proof (sm_page d M K KV w S i). destruct (0 <? pbytes (pages w i)); cbn; lia. }
    rewrite Nat2Z.inj_succ, Z.mul_succ_l. lia. }
  assert (ONE : forall f n s z, (forall k, lsize d w (f k) = s) -> SUM (map f (seq z n)) = Z.of_nat n * s).
  { intros f n s. induction n as [|n IH]; intros z H; [reflexivity|]. cbn [seq map]. change (f z :: map f (seq (Datatypes.S z) n)) with ([f z] ++ map f (seq (Datatypes.S z) n)).
    rewrite AS, IH by exact H. unfold SUM. cbn [map fold_right snd]. rewrite H. lia. }
  assert (T : SUM (flat_map (fun t => map (LL t) (seq 0 (length (entries (lists w t))))) wtypes) <= tsum K d).
  { unfold tsum. clear I. induction wtypes as [|t l IH]; [cbn; lia|]. cbn [flat_map fold_right]. rewrite AS, (ONE _ _ (asize d t)) by reflexivity.
    pose proof (sm_list d M K KV w S t). pose proof (asize_nonneg d t D). nia. }
  assert (V : SUM (flat_map (fun v => map (LV v) (seq 0 (length (entries (listsv w v))))) vtypes) <= vsum KV d).
  { unfold vsum. clear I. induction vtypes as [|t l IH]; [cbn; lia|]. cbn [flat_map fold_right]. rewrite AS, (ONE _ _ (vsize d t)) by reflexivity.
    pose proof (sm_listv d M K KV w S t). pose proof (vsize_nonneg d t D). nia. }
  unfold SUM in P, T, V. lia.
Qed.
(** along a computation *)
Fixpoint within (d : dims) (M : Z) (K : wtype -> nat) (KV : vtype -> nat) (cs : list wop) (s : wstate) : Prop :=
  (forall t, ilist (fpos (top s)) t <= K t)%nat /\ (forall v, ilistv (fpos (top s)) v <= KV v)%nat /\
  match cs with
  | [] => True
  | c :: cs => (forall n, c = Page n -> 0 <= n <= M) /\ (forall s', wstep d c s = Ok s' -> within d M K KV cs s')
  end.
Lemma within_small d M K KV cs : dims_ok d -> forall s s', sinv d s -> small d M K KV (sh s) -> within d M K KV cs s -> wsteps d cs s = Ok s' ->
  sinv d s' /\ small d M K KV (sh s').
Proof.
  intros D. induction cs as [|c cs IH]; intros s s' S Q H; cbn [wsteps]; [intros E; injection E as <-; auto|].
  cbn [within] in H. destruct H as (H1 & H2 & H3 & H4). destruct (wstep d c s) as [s1| |] eqn:E; try discriminate. specialize (H4 s1 eq_refl).
  assert (OK : wop_ok c) by (destruct c; cbn; auto; destruct (H3 length eq_refl); lia).
  assert (S1 : sinv d s1) by (destruct (wstep_ok d c s (min_page_pos d D) OK S) as [(n & -> & E')|(s2 & E' & S2)]; rewrite E in E'; [discriminate | injection E' as ->; exact S2]).
  apply IH; [exact S1 | | exact H4].
  assert (R : prange (sh s) (fpos (top s))) by (destruct S as (_ & S & _); inversion S as [|? ? S0 ?]; subst; exact (proj1 S0)).
  assert (H5 : (forall t, ilist (fpos (top s1)) t <= K t)%nat /\ (forall v, ilistv (fpos (top s1)) v <= KV v)%nat) by (destruct cs; cbn [within] in H4; tauto).
  destruct H5 as [H5 H6]. destruct c as [n|t|v t k| |]; cbn [wstep] in E.
  - destruct (get_page d _ _ n) as [[[w' p'] rs]| |] eqn:G; try discriminate. cbn in E. injection E as <-. cbn. eapply page_small; eauto.
  - destruct (get1 d _ _ t) as [[[w' p'] rs]| |] eqn:G; try discriminate. cbn in E. injection E as <-. cbn in *. eapply get1_small; eauto.
  - destruct (getv d _ _ v t k) as [[[w' p'] rs]| |] eqn:G; try discriminate. cbn in E. injection E as <-. cbn in *. eapply getv_small; eauto.
  - injection E as <-. exact Q.
  - destruct (callers s); injection E as <-; exact Q.
Qed.
