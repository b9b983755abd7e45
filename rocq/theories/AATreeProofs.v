From Coq Require Import ZArith List Bool Sorted Permutation Lia.
From Verif Require Import AATreeModel AATreeSpec.
Import ListNotations.
Open Scope Z_scope.

Section P.
Variable V : Type.
Implicit Types (t a b : tree V) (v x : V).

Lemma bal_level t : balanced t -> 0 <= level t.
Proof. destruct t; cbn; lia. Qed.
Lemma bal_pos t : balanced t -> t = Null \/ 1 <= level t.
Proof. destruct t; cbn; intuition. Qed.
Lemma bal_rt t : balanced t -> level (rt t) <= level t.
Proof. destruct t; cbn; lia. Qed.
Lemma skew_in t t' : skew t = Some t' -> in_order t' = in_order t.
Proof.
  unfold skew. destruct (level (lf t) =? level t); [|now intros [= <-]].
  destruct t as [|k [|k' a x b] y c]; try discriminate; intros [= <-]; cbn; auto. rewrite <- app_assoc. reflexivity.
Qed.
Lemma split_in t t' : split t = Some t' -> in_order t' = in_order t.
Proof.
  unfold split. destruct (level (rt (rt t)) =? level t); [|now intros [= <-]].
  destruct t as [|k a x [|k' b y c]]; try discriminate; intros [= <-]; cbn; auto. rewrite <- app_assoc. reflexivity.
Qed.

Variable comp : V -> V -> Z.
(** Balance is kept and the sentinel is never touched. *)
Definition up t t' : Prop := level t' = level t + 1 /\ level (rt t') = level t.
Lemma insert_bal t v : balanced t -> exists t' f, insert_ comp t v = Some (t', f) /\ balanced t' /\
  (level t' = level t \/ up t t') /\ (t <> Null -> level (rt t) < level t -> level t' = level t).
Proof.
  induction t as [|k a IHa x b IHb]; intro B.
  - exists (Node 1 Null v Null), true. split; [reflexivity|]. cbn. split; [lia|]. split; [right; split; reflexivity|congruence].
  - destruct B as (La & Lb & Lbb & K & Ba & Bb). cbn [insert_].
    destruct (comp v x <? 0) eqn:C1; [|destruct (comp v x >? 0) eqn:C2].
    + destruct (IHa Ba) as (a' & f & -> & Ba' & [L|[L U]] & _).
      * unfold skew. cbn [lf level]. replace (level a' =? k) with false by (symmetry; apply Z.eqb_neq; lia).
        unfold split. cbn [rt level]. replace (level (rt b) =? k) with false by (symmetry; apply Z.eqb_neq; lia).
        eexists _, _. split; [reflexivity|]. cbn [balanced level rt]. split; [intuition; lia|]. split; [left; lia|lia].
      * unfold skew. cbn [lf level]. replace (level a' =? k) with true by (symmetry; apply Z.eqb_eq; lia).
        destruct a' as [|k' a1 y b1]; [cbn in L; pose proof (bal_level _ Ba); lia|]. cbn [level rt] in L, U.
        unfold split. cbn [rt level]. destruct Ba' as (La1 & Lb1 & Lbb1 & K1 & Ba1 & Bb1).
        destruct (level b =? k') eqn:E.
        -- apply Z.eqb_eq in E. destruct b as [|kb bl bv br]; [cbn in E; lia|].
           eexists _, _. split; [reflexivity|]. cbn [balanced level rt] in *. unfold up. cbn [level rt].
           split; [|split; [right; lia|intros; lia]]. replace k with k' by lia. intuition; lia.
        -- apply Z.eqb_neq in E. eexists _, _. split; [reflexivity|]. cbn [balanced level rt] in *.
           split; [|split; [left; lia|intros; lia]]. replace k with k' by lia. intuition; lia.
    + destruct (IHb Bb) as (b' & f & -> & Bb' & Lv & Keep).
      unfold skew. cbn [lf level]. replace (level a =? k) with false by (symmetry; apply Z.eqb_neq; lia).
      unfold split. cbn [rt level]. destruct (level (rt b') =? k) eqn:E.
      * apply Z.eqb_eq in E. destruct b' as [|kb bl bv br]; [cbn in E; lia|].
        cbn [rt] in E. eexists _, _. split; [reflexivity|]. unfold up in *. cbn [balanced level rt] in *.
        destruct Bb' as (L1 & L2 & L3 & K1 & B1 & B2).
        assert (level b = k).
        { destruct Lb as [Lb|Lb]; [|exact Lb]. exfalso. destruct Lv as [Lv|[Lv U]]; lia. }
        assert (kb = k). { destruct b as [|kk]; cbn [level] in *; [lia|]. rewrite <- H. apply Keep; [discriminate|]. cbn [rt] in *. lia. }
        subst kb. pose proof (bal_rt _ B1). split; [|split; [right; lia|intros; lia]]. repeat match goal with |- _ /\ _ => split end; auto; lia.
      * apply Z.eqb_neq in E. eexists _, _. split; [reflexivity|]. unfold up in *. cbn [balanced level rt] in *.
        split; [|split; [left; lia|intros; lia]].
        assert (level b' = k - 1 \/ level b' = k).
        { destruct Lv as [Lv|[Lv U]]; [lia|]. destruct Lb as [Lb|Lb]; [lia|]. exfalso.
          destruct b as [|kk]; cbn [level] in *; [lia|]. cbn [rt] in Lbb. specialize (Keep ltac:(discriminate) ltac:(cbn [rt]; lia)). lia. }
        assert (level (rt b') < k).
        { destruct b' as [|kb bl bv br]; cbn [level rt balanced] in *; [lia|]. lia. }
        intuition; lia.
    + unfold skew. cbn [lf level]. replace (level a =? k) with false by (symmetry; apply Z.eqb_neq; lia).
      unfold split. cbn [rt level]. replace (level (rt b) =? k) with false by (symmetry; apply Z.eqb_neq; lia).
      eexists _, _. split; [reflexivity|]. cbn [balanced level rt]. split; [intuition; lia|]. split; [left; lia|auto].
Qed.

(** Contents. *)
Hypothesis O : orders comp.
Notation asc := (ascending comp).
Lemma comp_refl : forall v, comp v v = 0.
Proof. intro v. pose proof (ord_swap _ O v v). lia. Qed.
Lemma comp_sym : forall v w, comp v w = 0 -> comp w v = 0.
Proof. intros v w E. pose proof (ord_swap _ O v w). pose proof (ord_swap _ O w v). lia. Qed.
Lemma asc_app l1 x l2 : asc (l1 ++ x :: l2) <-> asc l1 /\ asc l2 /\ (forall y, In y l1 -> comp y x < 0) /\ (forall y, In y l2 -> comp x y < 0).
Proof.
  unfold ascending. induction l1 as [|y l1 IH]; cbn.
  - split.
    + intros S. inversion S; subst. rewrite Forall_forall in H2. split; [constructor|]. split; [auto|]. split; [intros y []|auto].
    + intros (_ & S & _ & H). constructor; [auto|]. now rewrite Forall_forall.
  - split.
    + intro S. inversion S as [|? ? S' F]; subst. apply IH in S' as (A & B & C & D). rewrite Forall_forall in F.
      split; [constructor; [auto|rewrite Forall_forall; intros z Hz; apply F, in_or_app; auto]|]. split; [auto|].
      split; [|auto]. intros z [<-|Hz]; [apply F, in_or_app; right; now left|auto].
    + intros (A & B & C & D). inversion A as [|? ? A' F]; subst. rewrite Forall_forall in F. constructor.
      * apply IH. split; [auto|]. split; [auto|]. split; [intros z Hz; apply C; now right|auto].
      * rewrite Forall_forall. intros z Hz. apply in_app_or in Hz as [Hz|[<-|Hz]]; [auto|apply C; now left|]. apply (ord_trans _ O y x z); [apply C; now left|auto].
Qed.
Lemma has_split (l1 : list V) x l2 v : existsb (fun w => comp v w =? 0) (l1 ++ x :: l2) = existsb (fun w => comp v w =? 0) l1 || ((comp v x =? 0) || existsb (fun w => comp v w =? 0) l2).
Proof. now rewrite existsb_app. Qed.
Lemma none_lt l v x : (forall y, In y l -> comp x y < 0) -> comp v x < 0 -> existsb (fun w => comp v w =? 0) l = false.
Proof.
  intros H L. apply Bool.not_true_iff_false. rewrite existsb_exists. intros (w & Hw & E). apply Z.eqb_eq in E.
  pose proof (ord_trans _ O v x w L (H w Hw)). lia.
Qed.
Lemma none_gt l v x : (forall y, In y l -> comp y x < 0) -> comp v x > 0 -> existsb (fun w => comp v w =? 0) l = false.
Proof.
  intros H L. apply Bool.not_true_iff_false. rewrite existsb_exists. intros (w & Hw & E). apply Z.eqb_eq in E.
  pose proof (ord_eq_l _ O v w x E (H w Hw)). lia.
Qed.
Lemma insert_in t v t' f : asc (in_order t) -> insert_ comp t v = Some (t', f) ->
  asc (in_order t') /\ f = negb (existsb (fun w => comp v w =? 0) (in_order t)) /\
  (if f then Permutation (in_order t') (v :: in_order t) else in_order t' = in_order t).
Proof.
  revert t' f. induction t as [|k a IHa x b IHb]; intros t' f S E.
  - injection E as <- <-. cbn. split; [repeat constructor|auto].
  - cbn [in_order] in S. apply asc_app in S as (Sa & Sb & Xa & Xb). cbn [insert_] in E.
    match type of E with match ?r with _ => _ end = _ => destruct r as [[t1 f1]|] eqn:R; [|discriminate E] end.
    destruct (skew t1) as [t2|] eqn:K2; [|discriminate E]. destruct (split t2) as [t3|] eqn:K3; [|discriminate E]. injection E as <- <-.
    rewrite (split_in _ _ K3), (skew_in _ _ K2). clear K2 K3 t2 t3. cbn [in_order]. rewrite has_split.
    destruct (comp v x <? 0) eqn:C1; [|destruct (comp v x >? 0) eqn:C2].
    + apply Z.ltb_lt in C1. destruct (insert_ comp a v) as [[a' fa]|]; [|discriminate R]. injection R as <- <-.
      destruct (IHa _ _ Sa eq_refl) as (Sa' & Fa & Pa). rewrite (none_lt _ v x Xb C1).
      replace (comp v x =? 0) with false by (symmetry; apply Z.eqb_neq; lia). cbn [orb]. rewrite orb_false_r. cbn [in_order].
      split; [|split; [exact Fa|]].
      * apply asc_app. split; [auto|]. split; [auto|]. split; [|auto]. intros y Hy. destruct fa; [|rewrite Pa in Hy; auto].
        apply (Permutation_in _ Pa) in Hy as [<-|Hy]; auto.
      * destruct fa; [|now rewrite Pa]. rewrite Pa. reflexivity.
    + apply Z.ltb_ge in C1. rewrite Z.gtb_ltb in C2. apply Z.ltb_lt in C2. destruct (insert_ comp b v) as [[b' fb]|]; [|discriminate R]. injection R as <- <-.
      destruct (IHb _ _ Sb eq_refl) as (Sb' & Fb & Pb). rewrite (none_gt _ v x Xa) by lia.
      replace (comp v x =? 0) with false by (symmetry; apply Z.eqb_neq; lia). cbn [orb]. cbn [in_order].
      split; [|split; [exact Fb|]].
      * apply asc_app. split; [auto|]. split; [auto|]. split; [auto|]. intros y Hy. destruct fb; [|rewrite Pb in Hy; auto].
        apply (Permutation_in _ Pb) in Hy as [<-|Hy]; auto. pose proof (ord_swap _ O x v). lia.
      * destruct fb; [|now rewrite Pb]. rewrite Pb. transitivity (in_order a ++ v :: x :: in_order b); [apply Permutation_app_head, perm_swap|].
        symmetry. apply (Permutation_middle (in_order a) (x :: in_order b)).
    + injection R as <- <-. assert (comp v x = 0) as -> by (apply Z.ltb_ge in C1; rewrite Z.gtb_ltb in C2; apply Z.ltb_ge in C2; lia).
      cbn [in_order]. rewrite orb_true_r. split; [now apply asc_app|auto].
Qed.
Lemma find_in t v : asc (in_order t) -> find_ comp t v = List.find (fun w => comp v w =? 0) (in_order t).
Proof.
  induction t as [|k a IHa x b IHb]; intro S; [reflexivity|]. cbn [in_order] in *. apply asc_app in S as (Sa & Sb & Xa & Xb). cbn [find_].
  assert (FA : forall l1 l2 : list V, List.find (fun w => comp v w =? 0) (l1 ++ l2) = match List.find (fun w => comp v w =? 0) l1 with Some w => Some w | None => List.find (fun w => comp v w =? 0) l2 end).
  { induction l1 as [|y l1 IH]; intros; [reflexivity|]. cbn. destruct (comp v y =? 0); auto. }
  assert (NF : forall l : list V, existsb (fun w => comp v w =? 0) l = false -> List.find (fun w => comp v w =? 0) l = None).
  { induction l as [|y l IH]; intros E; [reflexivity|]. cbn in *. destruct (comp v y =? 0); [discriminate|auto]. }
  rewrite FA. cbn [List.find]. destruct (comp v x <? 0) eqn:C1; [|destruct (comp v x >? 0) eqn:C2].
  - apply Z.ltb_lt in C1. rewrite IHa by auto. replace (comp v x =? 0) with false by (symmetry; apply Z.eqb_neq; lia).
    rewrite (NF (in_order b)) by (now apply (none_lt _ v x)). destruct (List.find _ (in_order a)); reflexivity.
  - rewrite Z.gtb_ltb in C2. apply Z.ltb_lt in C2. rewrite IHb by auto. replace (comp v x =? 0) with false by (symmetry; apply Z.eqb_neq; lia).
    rewrite (NF (in_order a)) by (apply (none_gt _ v x); auto; lia). reflexivity.
  - apply Z.ltb_ge in C1. rewrite Z.gtb_ltb in C2. apply Z.ltb_ge in C2. assert (E : comp v x = 0) by lia. rewrite E.
    rewrite (NF (in_order a)); [reflexivity|]. apply Bool.not_true_iff_false. rewrite existsb_exists. intros (w & Hw & Q). apply Z.eqb_eq in Q.
    pose proof (Xa w Hw). pose proof (ord_eq_l _ O v w x Q H). lia.
Qed.
End P.

(** Sizes, minimum, maximum. *)
Section Q.
Variable V : Type.
Implicit Types (t a b : tree V).
Lemma count_in t : count t = Z.of_nat (length (in_order t)).
Proof. induction t as [|k a IHa x b IHb]; [reflexivity|]. cbn [count in_order]. rewrite app_length. cbn [length]. lia. Qed.
Lemma min_in t : find_min t = hd_error (in_order t).
Proof.
  induction t as [|k a IHa x b IHb]; [reflexivity|]. cbn [find_min in_order]. destruct a as [|k' a1 y b1]; [reflexivity|].
  rewrite IHa. cbn [in_order]. destruct (in_order a1); reflexivity.
Qed.
Lemma max_in t : find_max t = hd_error (rev (in_order t)).
Proof.
  induction t as [|k a IHa x b IHb]; [reflexivity|]. cbn [find_max in_order]. rewrite rev_app_distr. cbn [rev].
  destruct b as [|k' a1 y b1]; [reflexivity|]. rewrite IHb. cbn [in_order]. rewrite rev_app_distr. cbn [rev].
  destruct (rev (in_order b1)); reflexivity.
Qed.
Lemma bal_count t : balanced t -> 2 ^ level t <= count t + 1.
Proof.
  induction t as [|k a IHa x b IHb]; intro B; [cbn; lia|]. destruct B as (La & Lb & _ & K & Ba & Bb).
  specialize (IHa Ba). specialize (IHb Bb). cbn [level count]. rewrite La in IHa.
  assert (2 ^ (k - 1) <= 2 ^ level b) by (apply Z.pow_le_mono_r; lia).
  replace k with (1 + (k - 1)) by lia. rewrite Z.pow_add_r by lia. lia.
Qed.
Lemma bal_depth t : balanced t -> Z.of_nat (depth t) <= 2 * level t /\ (level (rt t) < level t -> Z.of_nat (depth t) <= 2 * level t - 1).
Proof.
  induction t as [|k a IHa x b IHb]; intro B; [cbn; lia|]. destruct B as (La & Lb & Lbb & K & Ba & Bb).
  destruct (IHa Ba) as [A1 A2]. destruct (IHb Bb) as [B1 B2]. cbn [level rt depth] in *. 
  assert (level b = k -> Z.of_nat (depth b) <= 2 * k - 1) by (intro E; specialize (B2 ltac:(lia)); lia). split; intros; lia.
Qed.
End Q.

Section H.
Variables (V : Type) (comp : V -> V -> Z).
Hypothesis O : orders comp.
Lemma build_inv vs : exists t fs, build comp vs = Some (t, fs) /\ balanced t /\ ascending comp (in_order t) /\ Permutation (in_order t) (kept comp vs).
Proof.
  induction vs as [|v vs (t & fs & E & B & S & P)]; [exists Null, []; repeat split; constructor|]. cbn [build kept]. rewrite E.
  destruct (insert_bal V comp t v B) as (t' & f & I & B' & _). rewrite I. exists t', (f :: fs). split; [reflexivity|]. split; [exact B'|].
  destruct (insert_in V comp O t v t' f S I) as (S' & F & C). split; [exact S'|].
  assert (existsb (fun w => comp v w =? 0) (in_order t) = existsb (fun w => comp v w =? 0) (kept comp vs)) as Q.
  { apply Bool.eq_iff_eq_true. rewrite !existsb_exists. split; intros (w & Hw & Ew); exists w; split; auto; [now apply (Permutation_in _ P)|now apply (Permutation_in _ (Permutation_sym P))]. }
  rewrite Q in F. subst f. destruct (existsb (fun w => comp v w =? 0) (kept comp vs)); cbn [negb] in C; rewrite C; auto.
Qed.
End H.
