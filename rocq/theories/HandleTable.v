(** Proof support for the handle API: every setter either fails or performs one explicit
    list of writes.  Nothing here models C code; the functions below are the closed forms
    that [exec] is proved equal to. *)
From Coq Require Import ZArith NArith List Bool Lia SpecFloat FinFun.
From Verif Require Import Base OptionsModel Dbl HandleModel.
Import ListNotations.
Open Scope Z_scope.

(* ------------------------------------------------------------------------- *)
#[global] Arguments tst : simpl never.
#[global] Arguments bit : simpl never.
#[global] Arguments has_opt : simpl never.
#[global] Arguments has_slv : simpl never.
#[global] Arguments dlt : simpl never.
#[global] Arguments dle : simpl never.
#[global] Arguments dgt : simpl never.
#[global] Arguments dge : simpl never.
#[global] Arguments zseq : simpl never.

(** * Lists                                                                   *)

Definition len {A} (x : list A) : Z := Z.of_nat (length x).
Definition dn {A} (d : A) (x : list A) (i : Z) : A := nth (Z.to_nat i) x d.
Definition xd := dn d_zero.
Definition xz := dn 0.
Definition xl {A} := dn (@nil A).

Lemma in_zseq i a n : In i (zseq a n) <-> a <= i < n.
Proof.
  unfold zseq. rewrite in_map_iff. split.
  - intros (k & <- & Hk). apply in_seq in Hk. lia.
  - intros H. exists (Z.to_nat (i - a)). split; [lia|]. apply in_seq. lia.
Qed.

Lemma zseq_nil a n : n <= a -> zseq a n = [].
Proof. intro H. unfold zseq. now replace (Z.to_nat (n - a)) with 0%nat by lia. Qed.

Lemma zseq_cons a n : a < n -> zseq a n = a :: zseq (a + 1) n.
Proof.
  intro H. unfold zseq. replace (Z.to_nat (n - a)) with (S (Z.to_nat (n - (a + 1)))) by lia.
  cbn [seq map]. f_equal; [lia|]. rewrite <- seq_shift, map_map. apply map_ext. intro. lia.
Qed.

Lemma zseq_one a : zseq a (a + 1) = [a].
Proof. rewrite zseq_cons, zseq_nil by lia. reflexivity. Qed.

Lemma zseq_nodup a n : NoDup (zseq a n).
Proof. unfold zseq. apply FinFun.Injective_map_NoDup; [intros x y; lia|apply seq_NoDup]. Qed.

Lemma in_range_iff i n : in_range i n = true <-> 0 <= i < n.
Proof. unfold in_range. rewrite andb_true_iff. lia. Qed.

Lemma ua_ok {A} (d : A) x i : 0 <= i < len x -> ua x i = ret (dn d x i).
Proof.
  intro H. unfold ua, dn, len in *. destruct (Z.ltb_spec i 0); [lia|].
  rewrite (nth_error_nth' x d) by lia. reflexivity.
Qed.

(* ------------------------------------------------------------------------- *)
(** * Write lists                                                             *)

Definition ws := list (loc * val).
Definition app1 (m : loc -> option val) (w : loc * val) := upd m (fst w) (snd w).
Definition apw (w : ws) (h : handle) : handle :=
  mkH (h_cfg h) (h_alloc h) (fold_left app1 w (h_mem h)) (h_live h) (h_dep h).
Definition dep_or (m : N) (a b : Z) (h : handle) : handle :=
  mkH (h_cfg h) (h_alloc h) (h_mem h) (h_live h)
      (fun x => if dep_hit (h_cfg h) a b x then N.lor (h_dep h x) m else h_dep h x).

Lemma apw_nil h : apw [] h = h. Proof. destruct h; reflexivity. Qed.
Lemma apw_app w1 w2 h : apw (w1 ++ w2) h = apw w2 (apw w1 h).
Proof. unfold apw. cbn. now rewrite fold_left_app. Qed.

Lemma upd_same m l v : upd m l v l = Some v.
Proof. unfold upd. now destruct (loc_eq_dec l l). Qed.
Lemma upd_other m l v l' : l <> l' -> upd m l v l' = m l'.
Proof. unfold upd. now destruct (loc_eq_dec l l'). Qed.

Lemma apw_other w h l : (forall v, ~ In (l, v) w) -> h_mem (apw w h) l = h_mem h l.
Proof.
  unfold apw. cbn. generalize (h_mem h). induction w as [|[l1 v1] w IH]; intros m H; cbn; auto.
  rewrite IH; [|intros v Hv; apply (H v); now right].
  unfold app1. cbn. apply upd_other. intros ->. apply (H v1). now left.
Qed.

Lemma apw_in w h l : (exists v, In (l, v) w) -> exists v, In (l, v) w /\ h_mem (apw w h) l = Some v.
Proof.
  unfold apw. cbn. generalize (h_mem h).
  induction w as [|[l1 v1] w IH]; intros m (v & H); cbn in H; [easy|]. cbn [fold_left].
  destruct (in_dec loc_eq_dec l (map fst w)) as [Hi|Hi].
  - apply in_map_iff in Hi. destruct Hi as ([l2 v2] & E & Hi). cbn in E. subst l2.
    destruct (IH (app1 m (l1, v1))) as (u & Hu & E); [eauto|]. exists u. split; [now right|auto].
  - destruct H as [H|H].
    + injection H as -> ->. exists v. split; [now left|].
      pose proof (apw_other w (mkH (h_cfg h) (h_alloc h) (app1 m (l, v)) (h_live h) (h_dep h)) l) as Q.
      cbn in Q. rewrite Q; [unfold app1; cbn; apply upd_same|].
      intros u Hu. apply Hi. apply in_map_iff. now exists (l, u).
    + exfalso. apply Hi. apply in_map_iff. now exists (l, v).
Qed.

(** value at a location when all writes to it carry the same value *)
Lemma apw_val w h l v : In (l, v) w -> (forall u, In (l, u) w -> u = v) ->
  h_mem (apw w h) l = Some v.
Proof.
  intros H1 H2. destruct (apw_in w h l) as (u & Hu & E); [eauto|]. now rewrite (H2 u Hu) in E.
Qed.

Lemma apw_dec w h l :
  (h_mem (apw w h) l = h_mem h l /\ forall v, ~ In (l, v) w) \/
  (exists v, In (l, v) w /\ h_mem (apw w h) l = Some v).
Proof.
  destruct (in_dec loc_eq_dec l (map fst w)) as [Hi|Hi].
  - right. apply apw_in. apply in_map_iff in Hi. destruct Hi as ([l2 v2] & E & Hi). cbn in E. subst. eauto.
  - left. assert (forall v, ~ In (l, v) w).
    { intros v Hv. apply Hi. apply in_map_iff. now exists (l, v). }
    split; auto using apw_other.
Qed.

(* ------------------------------------------------------------------------- *)
(** * Programs that only write                                                *)

Definition stable (l : loc) : bool :=
  match l with InputsInit | NCoefLayer _ => true | _ => false end.

Record sim (h0 h : handle) : Prop := {
  sim_cfg : h_cfg h = h_cfg h0; sim_alloc : h_alloc h = h_alloc h0;
  sim_live : h_live h = h_live h0;
  sim_mem : forall l, stable l = true -> h_mem h l = h_mem h0 l }.

Lemma sim_refl h : sim h h. Proof. constructor; auto. Qed.

Definition stable_free (w : ws) : Prop := forall l v, In (l, v) w -> stable l = false.

Lemma sim_apw h0 h w : sim h0 h -> stable_free w -> sim h0 (apw w h).
Proof.
  intros [A B C D] S. constructor; cbn; auto. intros l Hl. rewrite <- D by auto.
  apply apw_other. intros v Hv. apply S in Hv. congruence.
Qed.

Definition does (h0 : handle) (m : M unit) (w : ws) : Prop :=
  stable_free w /\ forall h, sim h0 h -> m h = Ret tt (apw w h).

Definition acch (h : handle) (l : loc) : Prop := acc (h_alloc h) (h_live h) l = true.

Lemma does_ret h0 : does h0 (ret tt) [].
Proof. split; [intros l v []|]. intros. now rewrite apw_nil. Qed.

Lemma does_wr h0 l v : acch h0 l -> stable l = false -> does h0 (wr l v) [(l, v)].
Proof.
  intros A S. split.
  - intros l' v' [H|[]]. now injection H as <- <-.
  - intros h [E1 E2 E3 E4]. unfold wr, acch in *. rewrite <- E2, <- E3 in A. rewrite A. reflexivity.
Qed.

Lemma does_seq h0 m1 m2 w1 w2 : does h0 m1 w1 -> does h0 m2 w2 -> does h0 (m1;; m2) (w1 ++ w2).
Proof.
  intros [S1 H1] [S2 H2]. split.
  - intros l v H. apply in_app_or in H as [H|H]; eauto.
  - intros h Hs. unfold bind. rewrite H1 by auto. rewrite H2 by auto using sim_apw. now rewrite apw_app.
Qed.

Lemma does_for {A} h0 (l : list A) body f :
  (forall i, In i l -> does h0 (body i) (f i)) -> does h0 (for_ l body) (flat_map f l).
Proof.
  induction l as [|i l IH]; intro H; cbn.
  - apply does_ret.
  - apply does_seq; [apply H; now left|]. apply IH. intros. apply H. now right.
Qed.

Lemma does_ua {A} (d : A) h0 x i (k : A -> M unit) w : 0 <= i < len x ->
  does h0 (k (dn d x i)) w -> does h0 (a <- ua x i;; k a) w.
Proof. intros Hi [S H]. split; auto. intros h Hs. rewrite (ua_ok d) by auto. unfold bind, ret. auto. Qed.

(** The inputs_initialized member, as a boolean. *)
Definition iib (h : handle) : bool :=
  match h_mem h InputsInit with Some (VZ z) => negb (z =? 0) | _ => false end.
Definition eflag (b : bool) (fl : loc) : ws := if b then [(fl, VZ 1)] else [].
Definition ii_ok (h : handle) : Prop := exists z, h_mem h InputsInit = Some (VZ z).

Lemma rdZ_ok h l z : acch h l -> h_mem h l = Some (VZ z) -> rdZ l h = Ret z h.
Proof. intros A H. unfold rdZ, bind, rd. unfold acch in A. now rewrite A, H. Qed.
Lemma rdD_ok h l z : acch h l -> h_mem h l = Some (VD z) -> rdD l h = Ret z h.
Proof. intros A H. unfold rdD, bind, rd. unfold acch in A. now rewrite A, H. Qed.
Lemma rd_ok h l v : acch h l -> h_mem h l = Some v -> rd l h = Ret v h.
Proof. intros A H. unfold rd. unfold acch in A. now rewrite A, H. Qed.

Lemma rd_ii h : ii_ok h -> exists z, rdZ InputsInit h = Ret z h /\ iib h = negb (z =? 0).
Proof.
  intros (z & H). exists z. split; [apply rdZ_ok; auto; reflexivity|]. unfold iib. now rewrite H.
Qed.

Lemma sim_iib h0 h : sim h0 h -> iib h = iib h0.
Proof. intros S. unfold iib. rewrite (sim_mem _ _ S); auto. Qed.
Lemma sim_ii h0 h : sim h0 h -> ii_ok h0 -> ii_ok h.
Proof. intros S (z & H). exists z. rewrite (sim_mem _ _ S); auto. Qed.

Lemma does_flag h0 fl : ii_ok h0 -> (iib h0 = true -> acch h0 fl) -> stable fl = false ->
  does h0 (set_elem_flag fl) (eflag (iib h0) fl).
Proof.
  intros I A S. split.
  - unfold eflag. destruct (iib h0); [|intros l v []]. intros l v [H|[]]. now injection H as <- <-.
  - intros h Hs. unfold set_elem_flag. destruct (rd_ii h (sim_ii _ _ Hs I)) as (z & E & F).
    unfold bind. rewrite E. rewrite (sim_iib _ _ Hs) in F. rewrite <- F. unfold eflag, when.
    destruct (iib h0); [|unfold ret; now rewrite apw_nil].
    apply (does_wr h0); auto.
Qed.

(* ------------------------------------------------------------------------- *)
(** * Programs that only check                                                *)

Definition pcheck (h : handle) (m : M unit) (b : bool) : Prop :=
  if b then m h = Ret tt h else exists e, m h = Fail e h.

Lemma pc_reject h b e : pcheck h (reject_if b e) (negb b).
Proof. unfold pcheck, reject_if. destruct b; cbn; [now exists e|reflexivity]. Qed.

Lemma pc_seq h m1 m2 b1 b2 : pcheck h m1 b1 -> (b1 = true -> pcheck h m2 b2) ->
  pcheck h (m1;; m2) (b1 && b2).
Proof.
  unfold pcheck, bind. destruct b1; cbn.
  - intros -> H. apply H. reflexivity.
  - intros (e & ->) _. now exists e.
Qed.

Lemma pc_for {A} h (l : list A) body f : (forall i, In i l -> pcheck h (body i) (f i)) ->
  pcheck h (for_ l body) (forallb f l).
Proof.
  induction l as [|i l IH]; intro H; cbn [for_ forallb].
  - reflexivity.
  - apply pc_seq; [apply H; now left|]. intros _. apply IH. intros. apply H. now right.
Qed.

Lemma pc_ua {A} (d : A) h x i (k : A -> M unit) b : 0 <= i < len x ->
  pcheck h (k (dn d x i)) b -> pcheck h (a <- ua x i;; k a) b.
Proof. intros Hi H. unfold pcheck in *. rewrite (ua_ok d) by auto. unfold bind, ret. exact H. Qed.

Lemma pc_need_opt h m e : pcheck h (need_opt m e) (has_opt (h_cfg h) m).
Proof.
  unfold need_opt, bind, cfg. pose proof (pc_reject h (negb (has_opt (h_cfg h) m)) e) as H.
  now rewrite negb_involutive in H.
Qed.
Lemma pc_need_slv h m e : pcheck h (need_slv m e) (has_slv (h_cfg h) m).
Proof.
  unfold need_slv, bind, cfg. pose proof (pc_reject h (negb (has_slv (h_cfg h) m)) e) as H.
  now rewrite negb_involutive in H.
Qed.
Lemma pc_derivs h : pcheck h CHECK_INIT_FOR_DERIVS (has_opt (h_cfg h) OPT_CALC_DERIVS).
Proof. apply (pc_need_opt h OPT_CALC_DERIVS EM1). Qed.
Lemma pc_index h x n e : pcheck h (CHECK_INDEX_RANGE x n e) (in_range x n).
Proof.
  unfold CHECK_INDEX_RANGE. pose proof (pc_reject h ((x <? 0) || (x >=? n)) e) as H.
  replace (in_range x n) with (negb ((x <? 0) || (x >=? n))); auto.
  unfold in_range. rewrite negb_orb. f_equal; lia.
Qed.
Lemma pc_nk h e : pcheck h (CHECK_N_KERNELS_NOT_ZERO e) (negb (c_n_kernels (h_cfg h) =? 0)).
Proof. apply pc_reject. Qed.
Lemma pc_ret h : pcheck h (ret tt) true. Proof. reflexivity. Qed.

(** Result of a setter: accepted with one effect, or rejected without any. *)
Definition R {A} (h : handle) (m : M A) (acc : bool) (a : A) (h' : handle) : Prop :=
  if acc then m h = Ret a h' else exists e, m h = Fail e h.

Lemma R_check {A} h m b (k : M A) acc a h' : pcheck h m b -> (b = true -> R h k acc a h') ->
  R h (m;; k) (b && acc) a h'.
Proof.
  unfold pcheck, R, bind. destruct b; cbn.
  - intros -> H. apply H. reflexivity.
  - intros (e & ->) _. eauto.
Qed.
Lemma R_does {A} h m w (k : M A) a h' : does h m w -> k (apw w h) = Ret a h' -> R h (m;; k) true a h'.
Proof. intros [_ H] E. unfold R, bind. rewrite H by apply sim_refl. exact E. Qed.
Lemma R_cfg {A} h (k : config -> M A) acc a h' : R h (k (h_cfg h)) acc a h' -> R h (c <- cfg;; k c) acc a h'.
Proof. auto. Qed.
Lemma R_wrap {A} h (m : M A) acc a h' : R h m acc a h' -> R h (wrap m) acc a h'.
Proof. unfold R, wrap. destruct acc; [intros ->; auto|intros (e & ->); eauto]. Qed.
Lemma R_done h (m : M unit) acc h' : R h m acc tt h' -> R h (done m) acc [] h'.
Proof. unfold R, done, bind. destruct acc; [intros ->; auto|intros (e & ->); eauto]. Qed.
Lemma R_ua {A B} (d : A) h x i (k : A -> M B) acc a h' : 0 <= i < len x ->
  R h (k (dn d x i)) acc a h' -> R h (b <- ua x i;; k b) acc a h'.
Proof. intros Hi H. unfold R in *. rewrite (ua_ok d) by auto. exact H. Qed.

(** Accumulated writes, ended by a dependency update. *)
Definition RD (h0 : handle) (w0 : ws) (m : M unit) (post : handle -> handle) (wf : ws) : Prop :=
  stable_free w0 -> m (apw w0 h0) = Ret tt (post (apw wf h0)).
Lemma RD_start h m post wf : RD h [] m post wf -> R h m true tt (post (apw wf h)).
Proof. intro H. unfold RD in H. rewrite apw_nil in H. apply H. intros l v []. Qed.
Lemma RD_step h0 w0 m w1 k post wf : does h0 m w1 -> RD h0 (w0 ++ w1) k post wf ->
  RD h0 w0 (m;; k) post wf.
Proof.
  intros [S1 H1] H2 S0. unfold bind. rewrite H1 by (apply sim_apw; auto using sim_refl).
  rewrite <- apw_app. apply H2. intros l v H. apply in_app_or in H as [H|H]; eauto.
Qed.
Lemma RD_deps h0 w m a b wf : w = wf -> RD h0 w (set_deps m a b) (dep_or m a b) wf.
Proof. intros <- _. reflexivity. Qed.
Lemma RD_deps_all h0 w m wf : w = wf ->
  RD h0 w (set_deps_all m) (dep_or m 0 (c_n_layers (h_cfg h0))) wf.
Proof. intros <- _. reflexivity. Qed.
Lemma RD_end h0 w0 m w1 wf : does h0 m w1 -> w0 ++ w1 = wf -> RD h0 w0 m (fun h => h) wf.
Proof.
  intros [S1 H1] <- S0. rewrite H1 by (apply sim_apw; auto using sim_refl). now rewrite <- apw_app.
Qed.

Lemma bind_eq {A B} (m : M A) (k : A -> M B) h a h' : m h = Ret a h' -> bind m k h = k a h'.
Proof. intro E. unfold bind. now rewrite E. Qed.
Lemma bind_assoc {A B C} (m : M A) (f : A -> M B) (g : B -> M C) h :
  bind (bind m f) g h = bind m (fun x => bind (f x) g) h.
Proof. unfold bind. destruct (m h); auto. Qed.
Lemma R_assoc {A B C} h (m : M A) (f : A -> M B) (g : B -> M C) acc a h' :
  R h (bind (bind m f) g) acc a h' <-> R h (bind m (fun x => bind (f x) g)) acc a h'.
Proof. unfold R. rewrite bind_assoc. tauto. Qed.
