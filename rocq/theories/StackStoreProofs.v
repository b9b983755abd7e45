(** The memory of the stacks and their contents. *)
From Coq Require Import List Bool Arith ZArith Lia.
From Verif Require Import Base StackModel StackProofs StackStoreModel.
Import ListNotations.
Open Scope nat_scope.

Lemma nth_updk {A} (f : A -> A) : forall l k i, nth_error (upd k f l) i = if Nat.eqb i k then option_map f (nth_error l i) else nth_error l i.
Proof.
  induction l as [|x l IH]; intros k i; cbn [upd].
  - destruct k; destruct i; cbn; try reflexivity; now destruct (Nat.eqb i k).
  - destruct k as [|k], i as [|i]; cbn; auto.
Qed.
Lemma same_layers_eq a b : same_layers a b = true <-> i1 a = i1 b /\ i2 a = i2 b.
Proof. unfold same_layers. now rewrite andb_true_iff, !Nat.eqb_eq. Qed.
Lemma find_from_spec x : forall o i, match find_from i x o with
  | Some k => exists d h, k = i + d /\ nth_error o d = Some h /\ same_layers (hk h) x = true /\ forall e h', e < d -> nth_error o e = Some h' -> same_layers (hk h') x = false
  | None => forall e h', nth_error o e = Some h' -> same_layers (hk h') x = false
  end.
Proof.
  induction o as [|h o IH]; intros i; cbn [find_from].
  - intros e h' E. destruct e; discriminate.
  - destruct (same_layers (hk h) x) eqn:E.
    + exists 0, h. split; [lia|]. split; [reflexivity|]. split; [exact E | intros; lia].
    + specialize (IH (S i)). destruct (find_from (S i) x o) as [k|].
      * destruct IH as (d & h1 & -> & H1 & H2 & H3). exists (S d), h1. split; [lia|]. split; [exact H1|]. split; [exact H2|].
        intros [|e] h' L N; cbn in N; [injection N as <-; exact E | apply (H3 e h'); [lia | exact N]].
      * intros [|e] h' N; cbn in N; [injection N as <-; exact E | exact (IH e h' N)].
Qed.

(** Two chains that differ only in [allocated] *)
Definition alike (o o' : list held) : Prop := forall i, option_map (fun h => (hk h, arr h, fresh h)) (nth_error o i) = option_map (fun h => (hk h, arr h, fresh h)) (nth_error o' i).
Lemma alike_get o o' i h : alike o o' -> nth_error o i = Some h -> exists h', nth_error o' i = Some h' /\ hk h' = hk h /\ arr h' = arr h /\ fresh h' = fresh h.
Proof.
  intros A E. specialize (A i). rewrite E in A. destruct (nth_error o' i) as [h'|]; [|discriminate]. cbn in A. exists h'. split; [reflexivity|]. now injection A as -> -> ->.
Qed.
Lemma alike_refl o : alike o o.
Proof. intros i. reflexivity. Qed.
Lemma alike_sym o o' : alike o o' -> alike o' o.
Proof. intros A i. symmetry. apply A. Qed.
Lemma alike_trans a b c : alike a b -> alike b c -> alike a c.
Proof. intros A B i. now rewrite A. Qed.
Lemma alike_give k o : alike (upd k give o) o.
Proof. intros i. rewrite nth_updk. destruct (Nat.eqb i k); [|reflexivity]. now destruct (nth_error o i). Qed.

(** Each pair of layers occurs once in a chain *)
Definition once (o : list held) : Prop := forall i j a b, nth_error o i = Some a -> nth_error o j = Some b -> same_layers (hk a) (hk b) = true -> i = j.
Lemma once_alike o o' : alike o o' -> once o -> once o'.
Proof.
  intros A U i j a b Ea Eb E. destruct (alike_get _ _ _ _ (alike_sym _ _ A) Ea) as (a' & Ea' & Ka & _). destruct (alike_get _ _ _ _ (alike_sym _ _ A) Eb) as (b' & Eb' & Kb & _).
  apply (U i j a' b' Ea' Eb'). now rewrite Ka, Kb.
Qed.
Lemma find_once x o ii h : once o -> nth_error o ii = Some h -> same_layers (hk h) x = true -> find_from 0 x o = Some ii.
Proof.
  intros U E S. pose proof (find_from_spec x o 0) as F. destruct (find_from 0 x o) as [k|].
  - destruct F as (d & h1 & -> & H1 & H2 & _). f_equal. cbn. apply (U d ii h1 h H1 E). apply same_layers_eq in S, H2. apply same_layers_eq. lia.
  - rewrite (F ii h E) in S. discriminate.
Qed.

(** ** Handing over *)
Definition mem_layers (x : stk) (t : list stk) : bool := existsb (same_layers x) t.
Lemma hand_spec n : forall t i o hp nx, once o ->
  let r := hand n i o t hp nx in
  nx <= h_next r /\ length (h_new r) = length t /\ alike (h_old r) o /\
  (forall ii ho, nth_error o ii = Some ho -> exists h, nth_error (h_old r) ii = Some h /\ alloc h = alloc ho && negb (mem_layers (hk ho) t)) /\
  (forall k x, nth_error t k = Some x -> exists h, nth_error (h_new r) k = Some h /\ hk h = x /\ alloc h = true /\
     ((exists ii ho, nth_error o ii = Some ho /\ same_layers (hk ho) x = true /\ arr h = arr ho /\ fresh h = false) \/
      ((forall ii ho, nth_error o ii = Some ho -> same_layers (hk ho) x = false) /\ nx <= arr h < h_next r /\ In (arr h, (i + k) <? n) (h_heap r) /\ fresh h = true))) /\
  (forall k1 k2 h1 h2, nth_error (h_new r) k1 = Some h1 -> nth_error (h_new r) k2 = Some h2 -> nx <= arr h1 -> arr h1 = arr h2 -> (forall ii ho, nth_error o ii = Some ho -> arr ho < nx) -> k1 = k2) /\
  (exists news, h_heap r = news ++ hp /\ NoDup (map fst news) /\ forall b, In b news -> nx <= fst b < h_next r /\ exists k h, nth_error (h_new r) k = Some h /\ arr h = fst b /\ snd b = ((i + k) <? n)).
Proof.
  induction t as [|x t IH]; intros i o hp nx U; cbn [hand].
  - cbn. split; [lia|]. split; [reflexivity|]. split; [apply alike_refl|]. split; [intros ii ho E; exists ho; rewrite andb_true_r; auto|].
    split; [intros k x E; destruct k; discriminate|]. split; [intros [|k1] k2 h1 h2 E; discriminate|]. exists []. split; [reflexivity|]. split; [constructor | intros b []].
  - pose proof (find_from_spec x o 0) as F. destruct (find_from 0 x o) as [ii|] eqn:FE.
    + destruct F as (d & ho & -> & Ho & So & _). cbn [plus] in *. rewrite Ho.
      assert (AL : alike (upd d give o) o) by apply alike_give.
      destruct (IH (S i) (upd d give o) hp nx (once_alike _ _ (alike_sym _ _ AL) U)) as (I0 & I1 & I2 & I3 & I4 & I5 & I6).
      set (r := hand n (S i) (upd d give o) t hp nx) in *. cbn [h_old h_new h_heap h_next].
      split; [exact I0|]. split; [cbn; now rewrite I1|]. split; [exact (alike_trans _ _ _ I2 AL)|]. split.
      { intros jj h E. assert (E' : nth_error (upd d give o) jj = Some (if Nat.eqb jj d then give h else h)) by (rewrite nth_updk, E; now destruct (Nat.eqb jj d)).
        destruct (I3 jj _ E') as (h' & Eh' & Ah'). exists h'. split; [exact Eh'|]. rewrite Ah'. unfold mem_layers. cbn [existsb].
        destruct (Nat.eqb_spec jj d) as [->|NE]; cbn.
        - assert (h = ho) by congruence. subst h. rewrite So. cbn. now rewrite andb_false_r.
        - destruct (same_layers (hk h) x) eqn:E2; [|reflexivity]. exfalso. apply NE. apply (U jj d h ho E Ho). apply same_layers_eq in E2, So. apply same_layers_eq. lia. }
      split.
      { intros [|k] y E; cbn in E.
        - injection E as <-. eexists. split; [reflexivity|]. cbn. split; [reflexivity|]. split; [reflexivity|]. left. exists d, ho. auto.
        - destruct (I4 k y E) as (h & Eh & Kh & Ah & W). exists h. split; [exact Eh|]. split; [exact Kh|]. split; [exact Ah|]. destruct W as [(jj & hj & Ej & Sj & Aj & Fj)|(N & R & B & Fr)].
          + left. destruct (alike_get _ _ _ _ AL Ej) as (hj' & Ej' & Kj & Arj & _). exists jj, hj'. split; [exact Ej'|]. split; [now rewrite Kj|]. split; [now rewrite Arj | exact Fj].
          + right. split; [|split; [exact R|]; split; [replace (i + S k) with (S i + k) by lia; exact B | exact Fr]].
            intros jj hj Ej. destruct (alike_get _ _ _ _ (alike_sym _ _ AL) Ej) as (hj' & Ej' & Kj & _). rewrite <- Kj. exact (N jj hj' Ej'). }
      split.
      { intros k1 k2 h1 h2 E1 E2 L EQ B. assert (B' : forall jj hj, nth_error (upd d give o) jj = Some hj -> arr hj < nx).
        { intros jj hj Ej. destruct (alike_get _ _ _ _ AL Ej) as (hj' & Ej' & _ & Arj & _). rewrite <- Arj. exact (B jj hj' Ej'). }
        destruct k1 as [|k1]; cbn in E1; [injection E1 as <-; cbn in L; specialize (B d ho Ho); lia|].
        destruct k2 as [|k2]; cbn in E2; [injection E2 as <-; cbn in EQ; specialize (B d ho Ho); lia|]. f_equal. exact (I5 k1 k2 h1 h2 E1 E2 L EQ B'). }
      destruct I6 as (news & N1 & N2 & N3). exists news. split; [exact N1|]. split; [exact N2|]. intros b Ib. destruct (N3 b Ib) as (R & k & h & Ek & Ar & Sb). split; [exact R|].
      exists (S k), h. split; [exact Ek|]. split; [exact Ar|]. rewrite Sb. now rewrite <- Nat.add_succ_comm.
    + destruct (IH (S i) o ((nx, i <? n) :: hp) (S nx) U) as (I0 & I1 & I2 & I3 & I4 & I5 & I6).
      set (r := hand n (S i) o t ((nx, i <? n) :: hp) (S nx)) in *. cbn [h_old h_new h_heap h_next].
      split; [lia|]. split; [cbn; now rewrite I1|]. split; [exact I2|]. split.
      { intros jj h E. destruct (I3 jj h E) as (h' & Eh' & Ah'). exists h'. split; [exact Eh'|]. rewrite Ah'. unfold mem_layers. cbn [existsb]. now rewrite (F jj h E). }
      split.
      { intros [|k] y E; cbn in E.
        - injection E as <-. eexists. split; [reflexivity|]. cbn. split; [reflexivity|]. split; [reflexivity|]. right. split; [exact F|]. split; [lia|]. split; [|reflexivity].
          destruct I6 as (news & -> & _). apply in_app_iff. right. left. now rewrite Nat.add_0_r.
        - destruct (I4 k y E) as (h & Eh & Kh & Ah & W). exists h. split; [exact Eh|]. split; [exact Kh|]. split; [exact Ah|]. destruct W as [W|(N & R & B & Fr)]; [left; exact W|].
          right. split; [exact N|]. split; [lia|]. split; [replace (i + S k) with (S i + k) by lia; exact B | exact Fr]. }
      split.
      { intros k1 k2 h1 h2 E1 E2 L EQ B. assert (B' : forall jj hj, nth_error o jj = Some hj -> arr hj < S nx) by (intros jj hj Ej; specialize (B jj hj Ej); lia).
        assert (R : forall k h, nth_error (h_new r) k = Some h -> arr h = nx -> False).
        { intros k h Ek Ar. assert (k < length t) as Lk by (rewrite <- I1; apply nth_error_Some; congruence). destruct (nth_error t k) as [y|] eqn:Ey; [|apply nth_error_None in Ey; lia].
          destruct (I4 k y Ey) as (h' & Eh' & _ & _ & W). assert (h' = h) by congruence. subst h'. destruct W as [(jj & hj & Ej & _ & Aj & _)|(_ & R & _)]; [specialize (B jj hj Ej); lia | lia]. }
        destruct k1 as [|k1], k2 as [|k2]; cbn in E1, E2; [reflexivity | injection E1 as <-; cbn in EQ; exfalso; eauto | injection E2 as <-; cbn in EQ; exfalso; eauto |]. f_equal.
        assert (arr h1 <> nx) by (intros Q; exact (R k1 h1 E1 Q)). apply (I5 k1 k2 h1 h2 E1 E2); [lia | exact EQ | exact B']. }
      destruct I6 as (news & N1 & N2 & N3). exists (news ++ [(nx, i <? n)]). split; [rewrite N1, <- app_assoc; reflexivity|]. split.
      { rewrite map_app. cbn [map fst]. apply NoDup_rev in N2. assert (Q : NoDup (rev (nx :: rev (map fst news)))); [|cbn [rev] in Q; rewrite rev_involutive in Q; exact Q]. apply NoDup_rev. constructor; [|exact N2]. rewrite <- in_rev. intros I. apply in_map_iff in I. destruct I as (b & Eb & Ib). destruct (N3 b Ib). lia. }
      intros b Ib. apply in_app_iff in Ib. destruct Ib as [Ib|[<-|[]]].
      * destruct (N3 b Ib) as (R & k & h & Ek & Ar & Sb). split; [lia|]. exists (S k), h. split; [exact Ek|]. split; [exact Ar|]. rewrite Sb. now rewrite <- Nat.add_succ_comm.
      * cbn. split; [lia|]. exists 0. eexists. split; [reflexivity|]. cbn. split; [reflexivity|]. now rewrite Nat.add_0_r.
Qed.

(** ** Freeing *)
Lemma same_block_eq a b : same_block a b = true <-> a = b.
Proof. destruct a as [x u], b as [y v]. unfold same_block. cbn. rewrite andb_true_iff, Nat.eqb_eq, eqb_true_iff. split; [intros [-> ->]; reflexivity | intros E; now injection E]. Qed.
Lemma release_spec b : forall hp, In b hp -> NoDup (map fst hp) -> exists hp', release b hp = Some hp' /\ NoDup (map fst hp') /\ forall c, In c hp' <-> In c hp /\ c <> b.
Proof.
  induction hp as [|c hp IH]; intros I N; [destruct I|]. cbn [release]. destruct (same_block c b) eqn:E.
  - apply same_block_eq in E. subst c. exists hp. split; [reflexivity|]. cbn in N. inversion N as [|? ? N1 N2]; subst. split; [exact N2|]. intros c. split.
    + intros Ic. split; [now right|]. intros ->. apply N1. apply in_map_iff. now exists b.
    + intros [[<-|Ic] NE]; [congruence | exact Ic].
  - destruct I as [->|I]; [rewrite (proj2 (same_block_eq b b) eq_refl) in E; discriminate|]. cbn in N. inversion N as [|? ? N1 N2]; subst.
    destruct (IH I N2) as (hp' & -> & N' & H). exists (c :: hp'). split; [reflexivity|]. split.
    + cbn. constructor; [|exact N']. intros Q. apply in_map_iff in Q. destruct Q as (e & Ee & Ie). apply H in Ie. apply N1. apply in_map_iff. exists e. tauto.
    + intros e. cbn. rewrite H. split; [intros [<-|[Ie NE]]; [split; [now left|]; intros ->; rewrite (proj2 (same_block_eq b b) eq_refl) in E; discriminate | split; [now right | exact NE]] | intros [[<-|Ie] NE]; [now left | right; now split]].
Qed.
Lemma free_spec n : forall o i hp, NoDup (map fst hp) -> NoDup (map arr o) -> (forall k h, nth_error o k = Some h -> alloc h = true -> In (arr h, (i + k) <? n) hp) ->
  exists hp', chain_free n i o hp = Ok hp' /\ NoDup (map fst hp') /\ forall b, In b hp' <-> In b hp /\ forall k h, nth_error o k = Some h -> alloc h = true -> arr h <> fst b.
Proof.
  induction o as [|h o IH]; intros i hp N NA H; cbn [chain_free].
  - exists hp. split; [reflexivity|]. split; [exact N|]. intros b. split; [intros I; split; [exact I|]; intros [|k] h E; discriminate | tauto].
  - cbn in NA. inversion NA as [|? ? NA1 NA2]; subst. destruct (alloc h) eqn:A.
    + destruct (release_spec (arr h, i <? n) hp) as (hp1 & -> & N1 & H1); [replace i with (i + 0) by lia; exact (H 0 h eq_refl A) | exact N |].
      destruct (IH (S i) hp1 N1 NA2) as (hp' & E & N' & H').
      { intros k h' Ek Ak. apply H1. split; [replace (S i + k) with (i + S k) by lia; exact (H (S k) h' Ek Ak)|]. intros Q. injection Q as Q _. apply NA1. rewrite <- Q. apply in_map. eapply nth_error_In; eauto. }
      exists hp'. split; [exact E|]. split; [exact N'|]. intros b. rewrite H', H1. split.
      * intros [[Ib NE] Q]. split; [exact Ib|]. intros [|k] h' Ek Ak; cbn in Ek; [|eauto]. injection Ek as <-. intros EQ. apply NE.
        pose proof (H 0 h eq_refl A) as I0. rewrite Nat.add_0_r in I0. clear - N Ib I0 EQ. destruct b as [b0 b1]. cbn in *. subst b0.
        revert Ib I0. induction hp as [|c hp IH]; [intros []|]. cbn in N. inversion N as [|? ? N1 N2]; subst. intros [->|Ib] [Q|I0]; [congruence| | |auto].
        -- exfalso. apply N1. cbn. apply (in_map fst) in I0. exact I0.
        -- subst c. exfalso. apply N1. cbn. apply (in_map fst) in Ib. exact Ib.
      * intros [Ib Q]. split; [split; [exact Ib|]|intros k h' Ek; exact (Q (S k) h' Ek)]. intros ->. exact (Q 0 h eq_refl A eq_refl).
    + destruct (IH (S i) hp N NA2) as (hp' & E & N' & H').
      { intros k h' Ek Ak. replace (S i + k) with (i + S k) by lia. exact (H (S k) h' Ek Ak). }
      exists hp'. split; [exact E|]. split; [exact N'|]. intros b. rewrite H'. split; intros [Ib Q]; (split; [exact Ib|]).
      * intros [|k] h' Ek Ak; cbn in Ek; [injection Ek as <-; congruence | eauto].
      * intros k h' Ek. exact (Q (S k) h' Ek).
Qed.

(** ** The invariant of the memory *)
Definition planned (n nd : nat) (c : list held) (d : nat -> nat -> bool) : Prop := plan_ok n nd d (map hk c).
Record minv (n nd : nat) (s : store) : Prop := {
  v_none : chain s = None -> heap s = [];
  v_plan : forall c, chain s = Some c -> exists d, build (n * n) n nd (S (n * nd)) d = Some (Ok (map hk c)) /\ planned n nd c d;
  v_alloc : forall c k h, chain s = Some c -> nth_error c k = Some h -> alloc h = true /\ arr h < nxt s;
  v_arr : forall c, chain s = Some c -> NoDup (map arr c);
  v_heap : NoDup (map fst (heap s));
  v_in : forall c b, chain s = Some c -> (In b (heap s) <-> exists k h, nth_error c k = Some h /\ b = (arr h, k <? n)) }.

Lemma nth_map_hk c k x : nth_error (map hk c) k = Some x -> exists h, nth_error c k = Some h /\ hk h = x.
Proof. rewrite nth_error_map. destruct (nth_error c k) as [h|]; [|discriminate]. intros E. injection E as <-. eauto. Qed.
Lemma nth_hk c k h : nth_error c k = Some h -> nth_error (map hk c) k = Some (hk h).
Proof. intros E. now rewrite nth_error_map, E. Qed.
Lemma planned_once n nd c d : planned n nd c d -> once c.
Proof.
  intros P i j a b Ea Eb E. apply same_layers_eq in E. destruct E. apply (k_nodup n nd d _ P i j (hk a) (hk b)); auto using nth_hk.
Qed.
Lemma single_iff n nd d t k x : plan_ok n nd d t -> nth_error t k = Some x -> (k <? n) = Nat.eqb (i1 x) (i2 x).
Proof.
  intros P E. destruct (Nat.ltb_spec k n) as [L|L]; symmetry.
  - destruct (k_first n nd d t P k L) as (y & Ey & H1 & H2 & _). assert (y = x) by congruence. subst y. apply Nat.eqb_eq. congruence.
  - destruct (k_rest n nd d t P k x E L) as (a & b & xa & xb & _ & _ & _ & Ea & Eb & H1 & H2 & H3). pose proof (k_rng n nd d t P _ _ Ea). pose proof (k_rng n nd d t P _ _ Eb). apply Nat.eqb_neq. lia.
Qed.
Lemma nodup_nth {A} (l : list A) : (forall i j a, nth_error l i = Some a -> nth_error l j = Some a -> i = j) -> NoDup l.
Proof.
  intros H. apply NoDup_nth_error. intros i j Hi E. destruct (nth_error l i) as [a|] eqn:Ea; [eauto|]. apply nth_error_None in Ea. lia.
Qed.
Lemma nodup_get (c : list held) i j a b : NoDup (map arr c) -> nth_error c i = Some a -> nth_error c j = Some b -> arr a = arr b -> i = j.
Proof.
  intros N Ea Eb E. rewrite NoDup_nth_error in N. apply N; [rewrite map_length; apply nth_error_Some; congruence|]. rewrite !nth_error_map, Ea, Eb. cbn. now rewrite E.
Qed.

(** What an update leaves *)
Record updated (n nd : nat) (d : nat -> nat -> bool) (s s' : store) : Prop := {
  u_chain : exists c, chain s' = Some c /\ build (n * n) n nd (S (n * nd)) d = Some (Ok (map hk c)) /\
    forall k h, nth_error c k = Some h ->
      (exists o ii ho, chain s = Some o /\ nth_error o ii = Some ho /\ same_layers (hk ho) (hk h) = true /\ arr h = arr ho /\ fresh h = false) \/
      ((forall o ii ho, chain s = Some o -> nth_error o ii = Some ho -> same_layers (hk ho) (hk h) = false) /\ nxt s <= arr h /\ fresh h = true);
  u_cont : cont s' = (fun a => if nxt s <=? a then blank else cont s a);
  u_ver : ver s' = ver s;
  u_dirty : dirty s' = dirty s }.
Lemma update_ok n nd d s : minv n nd s -> exists s', update n nd d s = Ok s' /\ minv n nd s' /\ updated n nd d s s'.
Proof.
  intros V. unfold update. destruct (build_ok n nd d (S (n * nd)) ltac:(lia)) as (t & EB & PT). rewrite EB.
  set (o := match chain s with Some o => o | None => [] end).
  assert (OC : forall ii ho, nth_error o ii = Some ho -> chain s = Some o) by (intros ii ho E; unfold o in *; destruct (chain s); [reflexivity | destruct ii; discriminate]).
  assert (UO : once o).
  { unfold o. destruct (chain s) as [c|] eqn:C; [|intros [|i] j a b E; discriminate]. destruct (v_plan n nd s V c C) as (d0 & _ & P0). exact (planned_once n nd c d0 P0). }
  assert (AO : forall ii ho, nth_error o ii = Some ho -> alloc ho = true /\ arr ho < nxt s) by (intros ii ho E; exact (v_alloc n nd s V o ii ho (OC _ _ E) E)).
  assert (NO : NoDup (map arr o)).
  { unfold o. destruct (chain s) as [c|] eqn:C; [exact (v_arr n nd s V c C) | constructor]. }
  assert (HO : forall b, In b (heap s) <-> exists k h, nth_error o k = Some h /\ b = (arr h, k <? n)).
  { intros b. unfold o. destruct (chain s) as [c|] eqn:C; [exact (v_in n nd s V c b C)|]. rewrite (v_none n nd s V C). split; [intros [] | intros ([|k] & h & E & _); discriminate]. }
  assert (KO : forall ii ho, nth_error o ii = Some ho -> (ii <? n) = Nat.eqb (i1 (hk ho)) (i2 (hk ho))).
  { intros ii ho E. destruct (v_plan n nd s V o (OC _ _ E)) as (d0 & _ & P0). exact (single_iff n nd d0 _ ii (hk ho) P0 (nth_hk _ _ _ E)). }
  destruct (hand_spec n t 0 o (heap s) (nxt s) UO) as (I0 & I1 & I2 & I3 & I4 & I5 & I6). set (r := hand n 0 o t (heap s) (nxt s)) in *.
  destruct I6 as (news & N1 & N2 & N3).
  assert (HD : NoDup (map fst (h_heap r))).
  { rewrite N1, map_app. pose proof (v_heap n nd s V) as VH. clear - N2 N3 VH HO AO. induction news as [|b news IH]; [exact VH|]. cbn in *. inversion N2 as [|? ? Q1 Q2]; subst.
    constructor; [|apply IH; [exact Q2 | intros c Ic; apply N3; now right]]. rewrite in_app_iff. intros [Q|Q]; [contradiction|]. apply in_map_iff in Q. destruct Q as (c & Ec & Ic).
    apply HO in Ic. destruct Ic as (k & h & Ek & ->). cbn in Ec. destruct (AO _ _ Ek). destruct (N3 b (or_introl eq_refl)) as [R _]. lia. }
  assert (NO' : NoDup (map arr (h_old r))).
  { apply nodup_nth. intros i j a Ei Ej. rewrite nth_error_map in Ei, Ej. destruct (nth_error (h_old r) i) as [hi|] eqn:Ehi; [|discriminate]. destruct (nth_error (h_old r) j) as [hj|] eqn:Ehj; [|discriminate].
    cbn in Ei, Ej. destruct (alike_get _ _ _ _ I2 Ehi) as (gi & Gi & _ & Ai & _). destruct (alike_get _ _ _ _ I2 Ehj) as (gj & Gj & _ & Aj & _). apply (nodup_get o i j gi gj NO Gi Gj). congruence. }
  destruct (free_spec n (h_old r) 0 (h_heap r) HD NO') as (hp' & EF & ND' & HF).
  { intros k h Ek _. cbn [plus]. destruct (alike_get _ _ _ _ I2 Ek) as (g & Gk & _ & Ag & _). rewrite N1. apply in_app_iff. right. apply HO. exists k, g. split; [exact Gk | now rewrite Ag]. }
  rewrite EF. eexists. split; [reflexivity|].
  assert (MK : map hk (h_new r) = t).
  { clear - I1 I4. apply nth_ext with (d := {| i1 := 0; i2 := 0; needed := false; count := 0; parents := None |}) (d' := {| i1 := 0; i2 := 0; needed := false; count := 0; parents := None |}).
    - now rewrite map_length.
    - intros k Hk. rewrite map_length, I1 in Hk. destruct (nth_error t k) as [x|] eqn:Ex; [|apply nth_error_None in Ex; lia]. destruct (I4 k x Ex) as (h & Eh & Kh & _).
      rewrite (nth_error_nth _ _ _ Ex). apply nth_error_nth. now rewrite nth_error_map, Eh, <- Kh. }
  assert (GET : forall k h, nth_error (h_new r) k = Some h -> nth_error t k = Some (hk h)) by (intros k h E; rewrite <- MK; now apply nth_hk).
  assert (CASE : forall k h, nth_error (h_new r) k = Some h -> alloc h = true /\
     ((exists ii ho, nth_error o ii = Some ho /\ same_layers (hk ho) (hk h) = true /\ arr h = arr ho /\ fresh h = false) \/
      ((forall ii ho, nth_error o ii = Some ho -> same_layers (hk ho) (hk h) = false) /\ nxt s <= arr h < h_next r /\ In (arr h, k <? n) (h_heap r) /\ fresh h = true))).
  { intros k h E. destruct (I4 k (hk h) (GET k h E)) as (h' & E' & _ & A & W). assert (h' = h) by congruence. subst h'. split; [exact A | exact W]. }
  split; [split; cbn [chain heap nxt]|split; cbn [chain cont ver dirty]].
  - discriminate.
  - intros c E. injection E as <-. exists d. rewrite MK. split; [exact EB|]. unfold planned. now rewrite MK.
  - intros c k h E Ek. injection E as <-. destruct (CASE k h Ek) as [A W]. split; [exact A|]. destruct W as [(ii & ho & Eo & _ & Ar & _)|(_ & R & _)]; [destruct (AO _ _ Eo); lia | lia].
  - intros c E. injection E as <-. apply nodup_nth. intros i j a Ei Ej. rewrite nth_error_map in Ei, Ej. destruct (nth_error (h_new r) i) as [hi|] eqn:Ehi; [|discriminate]. destruct (nth_error (h_new r) j) as [hj|] eqn:Ehj; [|discriminate].
    cbn in Ei, Ej. destruct (CASE _ _ Ehi) as [_ Wi]. destruct (CASE _ _ Ehj) as [_ Wj].
    destruct Wi as [(ii & ho & Eo & So & Ar & _)|(Fi & Ri & _)]; destruct Wj as [(jj & ho' & Eo' & So' & Ar' & _)|(Fj & Rj & _)].
    + assert (ii = jj) by (apply (nodup_get o ii jj ho ho' NO Eo Eo'); congruence). subst jj. assert (ho' = ho) by congruence. subst ho'.
      apply (k_nodup n nd d t PT i j (hk hi) (hk hj) (GET _ _ Ehi) (GET _ _ Ehj)); apply same_layers_eq in So, So'; lia.
    + destruct (AO _ _ Eo). assert (arr hi = arr hj) by congruence. lia.
    + destruct (AO _ _ Eo'). assert (arr hi = arr hj) by congruence. lia.
    + apply (I5 i j hi hj Ehi Ehj); [lia | congruence | intros ii ho Eo; apply (AO ii ho Eo)].
  - exact ND'.
  - intros c b E. injection E as <-. rewrite HF. split.
    + intros [Ib Q]. rewrite N1 in Ib. apply in_app_iff in Ib. destruct Ib as [Ib|Ib].
      * destruct (N3 b Ib) as (_ & k & h & Ek & Ar & Sb). exists k, h. split; [exact Ek|]. destruct b as [b0 b1]. cbn in *. congruence.
      * apply HO in Ib. destruct Ib as (ii & ho & Eo & ->). cbn in Q. destruct (I3 ii ho Eo) as (h' & Eh' & Ah'). destruct (AO _ _ Eo) as [Al _]. rewrite Al in Ah'. cbn in Ah'.
        destruct (mem_layers (hk ho) t) eqn:M.
        -- apply existsb_exists in M. destruct M as (x & Ix & Sx). apply In_nth_error in Ix. destruct Ix as [k Ek]. destruct (I4 k x Ek) as (h & Eh & Kh & _ & W). exists k, h. split; [exact Eh|].
           destruct W as [(jj & hj & Ej & Sj & Ar & _)|(N & _)]; [|rewrite (N ii ho Eo) in Sx; discriminate].
           assert (jj = ii) by (apply (UO jj ii hj ho Ej Eo); apply same_layers_eq in Sj, Sx; apply same_layers_eq; lia). subst jj. assert (hj = ho) by congruence. subst hj. rewrite Ar. f_equal.
           rewrite (KO ii ho Eo), (single_iff n nd d t k x PT Ek). apply same_layers_eq in Sx. destruct Sx as [-> ->]. reflexivity.
        -- exfalso. destruct (alike_get _ _ _ _ I2 Eh') as (g & Gg & _ & Ag & _). apply (Q ii h' Eh' Ah'). congruence.
    + intros (k & h & Ek & ->). cbn [fst]. destruct (CASE k h Ek) as [_ W]. split.
      * destruct W as [(ii & ho & Eo & So & Ar & _)|(_ & _ & B & _)]; [|exact B]. rewrite N1. apply in_app_iff. right. apply HO. exists ii, ho. split; [exact Eo|]. rewrite Ar. f_equal.
        rewrite (KO ii ho Eo), (single_iff n nd d t k (hk h) PT (GET _ _ Ek)). apply same_layers_eq in So. destruct So as [-> ->]. reflexivity.
      * intros jj h' Ej Al EQ. destruct (alike_get _ _ _ _ I2 Ej) as (g & Gg & Kg & Ag & _). destruct W as [(ii & ho & Eo & So & Ar & _)|(_ & R & _)].
        -- assert (jj = ii) by (apply (nodup_get o jj ii g ho NO Gg Eo); congruence). subst jj. assert (g = ho) by congruence. subst g. destruct (I3 ii ho Eo) as (h2 & E2 & A2). assert (h2 = h') by congruence. subst h2.
           rewrite A2 in Al. apply andb_true_iff in Al. destruct Al as [_ Al]. apply negb_true_iff in Al. unfold mem_layers in Al.
           enough (existsb (same_layers (hk ho)) t = true) by congruence. apply existsb_exists. exists (hk h). split; [eapply nth_error_In; eauto | exact So].
        -- destruct (AO _ _ Gg). lia.
  - exists (h_new r). split; [reflexivity|]. rewrite MK. split; [exact EB|]. intros k h Ek. destruct (CASE k h Ek) as [_ W]. destruct W as [(ii & ho & Eo & So & Ar & Fr)|(N & R & _ & Fr)].
    + left. exists o, ii, ho. split; [exact (OC _ _ Eo)|]. auto.
    + right. split; [|split; [lia | exact Fr]]. intros o' ii ho C' Eo. assert (o' = o) by (unfold o; now rewrite C'). subst o'. exact (N ii ho Eo).
  - reflexivity.
  - reflexivity.
  - reflexivity.
Qed.
Lemma destroy_ok n nd s : minv n nd s -> destroy n s = Ok [].
Proof.
  intros V. unfold destroy. destruct (chain s) as [c|] eqn:C; [|now rewrite (v_none n nd s V C)].
  destruct (free_spec n c 0 (heap s) (v_heap n nd s V) (v_arr n nd s V c C)) as (hp & E & _ & H).
  { intros k h Ek _. apply (v_in n nd s V c _ C). exists k, h. auto. }
  rewrite E. f_equal. destruct hp as [|b hp]; [reflexivity|]. exfalso. destruct (proj1 (H b) (or_introl eq_refl)) as [Ib Q]. apply (v_in n nd s V c _ C) in Ib. destruct Ib as (k & h & Ek & ->).
  exact (Q k h Ek (proj1 (v_alloc n nd s V c k h C Ek)) eq_refl).
Qed.
