(** Program logic for the handle monad: weakest preconditions, and the syntactic facts
    "writes only these cells", "changes nothing", "depends only on these cells". *)
From Coq Require Import ZArith NArith List Bool Lia SpecFloat.
From Verif Require Import Base OptionsModel Dbl HandleModel HandleTable.
Import ListNotations.
Open Scope Z_scope.

(* ------------------------------------------------------------------------- *)
(** * Weakest preconditions                                                   *)

Definition wp {A} (m : M A) (Q : A -> handle -> Prop) (F : errc -> handle -> Prop) (h : handle) : Prop :=
  match m h with
  | Ret a h' => Q a h'
  | Fail e h' => F e h'
  | Undef => False
  end.

Lemma wp_ret {A} (a : A) (Q : A -> handle -> Prop) F h : Q a h -> wp (ret a) Q F h.
Proof. auto. Qed.
Lemma wp_fail {A} e (Q : A -> handle -> Prop) (F : errc -> handle -> Prop) h : F e h -> wp (fail e) Q F h.
Proof. auto. Qed.
Lemma wp_bind {A B} (m : M A) (k : A -> M B) Q F h :
  wp m (fun a h' => wp (k a) Q F h') F h -> wp (bind m k) Q F h.
Proof. unfold wp, bind. destruct (m h); auto. Qed.
Lemma wp_conseq {A} (m : M A) (Q Q' : A -> handle -> Prop) (F F' : errc -> handle -> Prop) h :
  wp m Q F h -> (forall a h', Q a h' -> Q' a h') -> (forall e h', F e h' -> F' e h') -> wp m Q' F' h.
Proof. unfold wp. destruct (m h); auto. Qed.
Lemma wp_wrap {A} (m : M A) Q (F : errc -> handle -> Prop) h :
  wp m Q (fun _ h' => F EInt h') h -> wp (wrap m) Q F h.
Proof. unfold wp, wrap. destruct (m h); auto. Qed.
Lemma wp_cfg (Q : config -> handle -> Prop) F h : Q (h_cfg h) h -> wp cfg Q F h.
Proof. auto. Qed.
Lemma wp_reject b e (Q : unit -> handle -> Prop) (F : errc -> handle -> Prop) h :
  (b = true -> F e h) -> (b = false -> Q tt h) -> wp (reject_if b e) Q F h.
Proof. unfold reject_if. destruct b; intros H1 H2; [apply wp_fail|apply wp_ret]; auto. Qed.
Lemma wp_when b m (Q : unit -> handle -> Prop) (F : errc -> handle -> Prop) h :
  (b = true -> wp m Q F h) -> (b = false -> Q tt h) -> wp (when b m) Q F h.
Proof. unfold when. destruct b; intros H1 H2; [|apply wp_ret]; auto. Qed.
Lemma wp_ua {A} (d : A) x i (Q : A -> handle -> Prop) F h : 0 <= i < len x -> Q (dn d x i) h ->
  wp (ua x i) Q F h.
Proof. intros Hi H. rewrite (ua_ok d) by auto. exact H. Qed.
Lemma wp_rd l v (Q : val -> handle -> Prop) F h : acch h l -> h_mem h l = Some v -> Q v h ->
  wp (rd l) Q F h.
Proof. intros A E H. unfold wp. now rewrite (rd_ok _ _ _ A E). Qed.
Lemma wp_rdZ l z (Q : Z -> handle -> Prop) F h : acch h l -> h_mem h l = Some (VZ z) -> Q z h ->
  wp (rdZ l) Q F h.
Proof. intros A E H. unfold wp. now rewrite (rdZ_ok _ _ _ A E). Qed.
Lemma wp_rdD l z (Q : dbl -> handle -> Prop) F h : acch h l -> h_mem h l = Some (VD z) -> Q z h ->
  wp (rdD l) Q F h.
Proof. intros A E H. unfold wp. now rewrite (rdD_ok _ _ _ A E). Qed.
Lemma wp_wr l v (Q : unit -> handle -> Prop) F h : acch h l -> Q tt (apw [(l, v)] h) -> wp (wr l v) Q F h.
Proof. intros A H. unfold wp, wr. unfold acch in A. now rewrite A. Qed.
Lemma wp_deps m a b (Q : unit -> handle -> Prop) F h : Q tt (dep_or m a b h) -> wp (set_deps m a b) Q F h.
Proof. auto. Qed.
Lemma wp_deps_all m (Q : unit -> handle -> Prop) F h :
  Q tt (dep_or m 0 (c_n_layers (h_cfg h)) h) -> wp (set_deps_all m) Q F h.
Proof. auto. Qed.

Lemma wp_zfor_aux body (I : Z -> handle -> Prop) (F : errc -> handle -> Prop) n : forall m a h,
  Z.to_nat (n - a) = m -> a <= n -> I a h ->
  (forall i h, a <= i < n -> I i h -> wp (body i) (fun _ => I (i + 1)) F h) ->
  wp (for_ (zseq a n) body) (fun _ => I n) F h.
Proof.
  induction m as [|m IH]; intros a h Hm Ha H0 HS.
  - assert (a = n) as -> by lia. rewrite zseq_nil by lia. exact H0.
  - rewrite zseq_cons by lia. cbn [for_]. apply wp_bind. eapply wp_conseq; [apply HS; [lia|exact H0]| |auto].
    intros [] h' H'. apply IH; [lia|lia|auto|]. intros i h2 Hi. apply HS. lia.
Qed.

Lemma wp_zfor body (I : Z -> handle -> Prop) (Q : unit -> handle -> Prop) (F : errc -> handle -> Prop) a n h :
  a <= n -> I a h ->
  (forall i h, a <= i < n -> I i h -> wp (body i) (fun _ => I (i + 1)) F h) ->
  (forall h, I n h -> Q tt h) -> wp (for_ (zseq a n) body) Q F h.
Proof.
  intros Ha H0 HS HQ. eapply wp_conseq; [eapply wp_zfor_aux; eauto| |auto].
  intros [] h'. apply HQ.
Qed.

(** A loop whose body preserves one assertion. *)
Lemma wp_for {A} body (I : handle -> Prop) (Q : unit -> handle -> Prop) (F : errc -> handle -> Prop) (l : list A) h :
  I h -> (forall i h, In i l -> I h -> wp (body i) (fun _ => I) F h) -> (forall h, I h -> Q tt h) ->
  wp (for_ l body) Q F h.
Proof.
  intros H0 HS HQ. revert h H0. induction l as [|i l IH]; intros h H0; cbn [for_].
  - apply wp_ret. auto.
  - apply wp_bind. eapply wp_conseq; [apply HS; [now left|exact H0]| |auto].
    intros [] h' H'. apply IH; auto. intros j h2 Hj. apply HS. now right.
Qed.

Lemma wp_and {A} (m : M A) Q1 Q2 F1 F2 h : wp m Q1 F1 h -> wp m Q2 F2 h ->
  wp m (fun a h' => Q1 a h' /\ Q2 a h') (fun e h' => F1 e h' /\ F2 e h') h.
Proof. unfold wp. destruct (m h); auto. Qed.

(* ------------------------------------------------------------------------- *)
(** * Which cells a program may write                                         *)

Definition only {A} (S : loc -> bool) (m : M A) : Prop :=
  forall h, match m h with
            | Ret _ h' | Fail _ h' => forall l, S l = false -> h_mem h' l = h_mem h l
            | Undef => True
            end.

Lemma only_bind {A B} S (m : M A) (k : A -> M B) : only S m -> (forall a, only S (k a)) -> only S (bind m k).
Proof.
  intros H1 H2 h. unfold bind. specialize (H1 h). destruct (m h) as [a h'|e h'|]; auto.
  specialize (H2 a h'). destruct (k a h') as [b h''|e h''|]; auto; intros l Hl; rewrite H2; auto.
Qed.
Lemma only_nop {A} S (m : M A) : (forall h, match m h with Ret _ h' | Fail _ h' => h_mem h' = h_mem h | _ => True end)
  -> only S m.
Proof. intros H h. specialize (H h). destruct (m h); auto; now rewrite H. Qed.
Lemma only_ret {A} S (a : A) : only S (ret a). Proof. now apply only_nop. Qed.
Lemma only_fail {A} S e : only S (@fail A e). Proof. now apply only_nop. Qed.
Lemma only_undef {A} S : only S (@undef A). Proof. now apply only_nop. Qed.
Lemma only_cfg S : only S cfg. Proof. now apply only_nop. Qed.
Lemma only_rd S l : only S (rd l).
Proof. apply only_nop. intro h. unfold rd. destruct acc; auto. destruct (h_mem h l); auto. Qed.
Lemma only_rdZ S l : only S (rdZ l).
Proof. unfold rdZ. apply only_bind; [apply only_rd|]. intros []; [apply only_ret|apply only_undef]. Qed.
Lemma only_rdD S l : only S (rdD l).
Proof. unfold rdD. apply only_bind; [apply only_rd|]. intros []; [apply only_undef|apply only_ret]. Qed.
Lemma only_wr (S : loc -> bool) l v : S l = true -> only S (wr l v).
Proof.
  intros H h. unfold wr. destruct acc; auto. cbn. intros l' Hl. apply upd_other. congruence.
Qed.
Lemma only_free S b : only S (free b).
Proof. apply only_nop. intro h. unfold free. destruct (h_live h b); auto. Qed.
Lemma only_ua {A} S (x : list A) i : only S (ua x i).
Proof. unfold ua. destruct (i <? 0); [apply only_undef|]. destruct nth_error; [apply only_ret|apply only_undef]. Qed.
Lemma only_when S b m : only S m -> only S (when b m).
Proof. unfold when. destruct b; auto using only_ret. Qed.
Lemma only_reject S b e : only S (reject_if b e).
Proof. unfold reject_if. destruct b; [apply only_fail|apply only_ret]. Qed.
Lemma only_for {A} S (l : list A) body : (forall i, In i l -> only S (body i)) -> only S (for_ l body).
Proof.
  induction l as [|i l IH]; intro H; cbn [for_]; [apply only_ret|].
  apply only_bind; [apply H; now left|]. intros _. apply IH. intros; apply H; now right.
Qed.
Lemma only_collect {A} S (l : list A) body : (forall i, only S (body i)) -> only S (collect l body).
Proof.
  intro H. induction l as [|i l IH]; cbn [collect]; [apply only_ret|].
  apply only_bind; auto. intro. apply only_bind; auto. intro. apply only_ret.
Qed.
Lemma only_wrap {A} S (m : M A) : only S m -> only S (wrap m).
Proof. intros H h. unfold wrap. specialize (H h). destruct (m h); auto. Qed.
Lemma only_deps S m a b : only S (set_deps m a b). Proof. now apply only_nop. Qed.
Lemma only_idep S m a b : only S (init_deps m a b). Proof. now apply only_nop. Qed.
Lemma only_set_cfg S f : only S (set_cfg f). Proof. now apply only_nop. Qed.
Lemma only_if {A} S (b : bool) (m1 m2 : M A) : only S m1 -> only S m2 -> only S (if b then m1 else m2).
Proof. destruct b; auto. Qed.
Lemma only_first_missing S l : (forall m, In m l -> only S m) -> only S (first_missing l).
Proof.
  induction l as [|m l IH]; intro H; cbn [first_missing]; [apply only_ret|].
  apply only_bind; [apply H; now left|]. intro r. apply only_if; [|apply only_ret].
  apply IH. intros; apply H; now right.
Qed.
Lemma only_req S b l k : only S (req b l k).
Proof. unfold req. destruct b; [|apply only_ret]. apply only_bind; [apply only_rdZ|]. intro; apply only_ret. Qed.

Lemma only_weaken {A} (S S' : loc -> bool) (m : M A) : (forall l, S l = true -> S' l = true) -> only S m -> only S' m.
Proof.
  intros H1 H h. specialize (H h). destruct (m h); auto; intros l Hl; apply H;
    (destruct (S l) eqn:E; auto; apply H1 in E; congruence).
Qed.

(* ------------------------------------------------------------------------- *)
(** * Programs that leave configuration, allocation and blocks alone          *)

Definition keeps {A} (m : M A) : Prop :=
  forall h, match m h with
            | Ret _ h' | Fail _ h' => h_cfg h' = h_cfg h /\ h_alloc h' = h_alloc h /\ h_live h' = h_live h
            | Undef => True
            end.

Lemma keeps_bind {A B} (m : M A) (k : A -> M B) : keeps m -> (forall a, keeps (k a)) -> keeps (bind m k).
Proof.
  intros H1 H2 h. unfold bind. specialize (H1 h). destruct (m h) as [a h'|e h'|]; auto.
  destruct H1 as (E1 & E2 & E3). rewrite <- E1, <- E2, <- E3. apply H2.
Qed.
Lemma keeps_ret {A} (a : A) : keeps (ret a). Proof. repeat split. Qed.
Lemma keeps_fail {A} e : keeps (@fail A e). Proof. repeat split. Qed.
Lemma keeps_undef {A} : keeps (@undef A). Proof. exact (fun _ => I). Qed.
Lemma keeps_cfg : keeps cfg. Proof. repeat split. Qed.
Lemma keeps_rd l : keeps (rd l).
Proof. intro h. unfold rd. destruct acc; auto. destruct (h_mem h l); auto. Qed.
Lemma keeps_rdZ l : keeps (rdZ l).
Proof. unfold rdZ. apply keeps_bind; [apply keeps_rd|]. intros []; [apply keeps_ret|apply keeps_undef]. Qed.
Lemma keeps_rdD l : keeps (rdD l).
Proof. unfold rdD. apply keeps_bind; [apply keeps_rd|]. intros []; [apply keeps_undef|apply keeps_ret]. Qed.
Lemma keeps_wr l v : keeps (wr l v).
Proof. intro h. unfold wr. destruct acc; auto. Qed.
Lemma keeps_ua {A} (x : list A) i : keeps (ua x i).
Proof. unfold ua. destruct (i <? 0); [apply keeps_undef|]. destruct nth_error; [apply keeps_ret|apply keeps_undef]. Qed.
Lemma keeps_when b m : keeps m -> keeps (when b m).
Proof. unfold when. destruct b; auto using keeps_ret. Qed.
Lemma keeps_reject b e : keeps (reject_if b e).
Proof. unfold reject_if. destruct b; [apply keeps_fail|apply keeps_ret]. Qed.
Lemma keeps_for {A} (l : list A) body : (forall i, keeps (body i)) -> keeps (for_ l body).
Proof.
  intro H. induction l as [|i l IH]; cbn [for_]; [apply keeps_ret|].
  apply keeps_bind; auto.
Qed.
Lemma keeps_wrap {A} (m : M A) : keeps m -> keeps (wrap m).
Proof. intros H h. unfold wrap. specialize (H h). destruct (m h); auto. Qed.
Lemma keeps_deps m a b : keeps (set_deps m a b). Proof. repeat split. Qed.
Lemma keeps_idep m a b : keeps (init_deps m a b). Proof. repeat split. Qed.
Lemma keeps_if {A} (b : bool) (m1 m2 : M A) : keeps m1 -> keeps m2 -> keeps (if b then m1 else m2).
Proof. destruct b; auto. Qed.

(* ------------------------------------------------------------------------- *)
(** * Programs that change nothing                                            *)

Definition pure {A} (m : M A) : Prop :=
  forall h, match m h with Ret _ h' | Fail _ h' => h' = h | Undef => True end.

Lemma pure_bind {A B} (m : M A) (k : A -> M B) : pure m -> (forall a, pure (k a)) -> pure (bind m k).
Proof.
  intros H1 H2 h. unfold bind. specialize (H1 h). destruct (m h) as [a h'|e h'|]; auto. subst. apply H2.
Qed.
Lemma pure_ret {A} (a : A) : pure (ret a). Proof. repeat split. Qed.
Lemma pure_fail {A} e : pure (@fail A e). Proof. repeat split. Qed.
Lemma pure_undef {A} : pure (@undef A). Proof. exact (fun _ => I). Qed.
Lemma pure_cfg : pure cfg. Proof. repeat split. Qed.
Lemma pure_rd l : pure (rd l).
Proof. intro h. unfold rd. destruct acc; auto. destruct (h_mem h l); auto. Qed.
Lemma pure_rdZ l : pure (rdZ l).
Proof. unfold rdZ. apply pure_bind; [apply pure_rd|]. intros []; [apply pure_ret|apply pure_undef]. Qed.
Lemma pure_rdD l : pure (rdD l).
Proof. unfold rdD. apply pure_bind; [apply pure_rd|]. intros []; [apply pure_undef|apply pure_ret]. Qed.
Lemma pure_ua {A} (x : list A) i : pure (ua x i).
Proof. unfold ua. destruct (i <? 0); [apply pure_undef|]. destruct nth_error; [apply pure_ret|apply pure_undef]. Qed.
Lemma pure_reject b e : pure (reject_if b e).
Proof. unfold reject_if. destruct b; [apply pure_fail|apply pure_ret]. Qed.
Lemma pure_collect {A} (l : list A) body : (forall i, pure (body i)) -> pure (collect l body).
Proof.
  intro H. induction l as [|i l IH]; cbn [collect]; [apply pure_ret|].
  apply pure_bind; auto. intro. apply pure_bind; auto. intro. apply pure_ret.
Qed.
Lemma pure_if {A} (b : bool) (m1 m2 : M A) : pure m1 -> pure m2 -> pure (if b then m1 else m2).
Proof. destruct b; auto. Qed.

(* ------------------------------------------------------------------------- *)
(** * Programs whose result depends only on some cells                        *)

Definition same (S : loc -> bool) (h1 h2 : handle) : Prop :=
  h_cfg h1 = h_cfg h2 /\ h_alloc h1 = h_alloc h2 /\ h_live h1 = h_live h2 /\
  forall l, S l = true -> h_mem h1 l = h_mem h2 l.

(** Outcome without the state. *)
Inductive ans (A : Type) : Type := ARet (a : A) | AFail (e : errc) | AUndef.
Arguments ARet {A} _. Arguments AFail {A} _. Arguments AUndef {A}.
Definition answer {A} (r : res A) : ans A :=
  match r with Ret a _ => ARet a | Fail e _ => AFail e | Undef => AUndef end.

Definition local {A} (S : loc -> bool) (m : M A) : Prop :=
  pure m /\ forall h1 h2, same S h1 h2 -> answer (m h1) = answer (m h2).

Lemma local_bind {A B} S (m : M A) (k : A -> M B) : local S m -> (forall a, local S (k a)) -> local S (bind m k).
Proof.
  intros [P1 L1] H. split; [apply pure_bind; auto; intro a; apply (H a)|].
  intros h1 h2 E. pose proof (L1 _ _ E) as L. pose proof (P1 h1) as Q1. pose proof (P1 h2) as Q2.
  unfold bind. destruct (m h1), (m h2); cbn in L; try discriminate; auto; subst.
  - injection L as ->. now apply (H _).
  - now injection L as ->.
Qed.
Lemma local_ret {A} S (a : A) : local S (ret a). Proof. split; [apply pure_ret|reflexivity]. Qed.
Lemma local_fail {A} S e : local S (@fail A e). Proof. split; [apply pure_fail|reflexivity]. Qed.
Lemma local_undef {A} S : local S (@undef A). Proof. split; [apply pure_undef|reflexivity]. Qed.
Lemma local_cfg S : local S cfg.
Proof. split; [apply pure_cfg|]. intros h1 h2 (E & _). cbn. congruence. Qed.
Lemma local_rd (S : loc -> bool) l : S l = true -> local S (rd l).
Proof.
  intro H. split; [apply pure_rd|]. intros h1 h2 (_ & E2 & E3 & E4). unfold rd.
  rewrite E2, E3, (E4 l H). destruct acc; auto. destruct (h_mem h2 l); auto.
Qed.
Lemma local_rdZ (S : loc -> bool) l : S l = true -> local S (rdZ l).
Proof. intro. unfold rdZ. apply local_bind; [now apply local_rd|]. intros []; [apply local_ret|apply local_undef]. Qed.
Lemma local_rdD (S : loc -> bool) l : S l = true -> local S (rdD l).
Proof. intro. unfold rdD. apply local_bind; [now apply local_rd|]. intros []; [apply local_undef|apply local_ret]. Qed.
Lemma local_ua {A} S (x : list A) i : local S (ua x i).
Proof. unfold ua. destruct (i <? 0); [apply local_undef|]. destruct nth_error; [apply local_ret|apply local_undef]. Qed.
Lemma local_reject S b e : local S (reject_if b e).
Proof. unfold reject_if. destruct b; [apply local_fail|apply local_ret]. Qed.
Lemma local_collect {A} S (l : list A) body : (forall i, In i l -> local S (body i)) -> local S (collect l body).
Proof.
  induction l as [|i l IH]; intro H; cbn [collect]; [apply local_ret|].
  apply local_bind; [apply H; now left|]. intro. apply local_bind; [|intro; apply local_ret].
  apply IH. intros; apply H; now right.
Qed.
Lemma local_if {A} S (b : bool) (m1 m2 : M A) : local S m1 -> local S m2 -> local S (if b then m1 else m2).
Proof. destruct b; auto. Qed.
