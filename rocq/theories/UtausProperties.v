(** C19: output optical depths are placed in the layer that contains them. *)
From Coq Require Import ZArith NArith List Bool Lia SpecFloat Arith.
From Verif Require Import Base OptionsModel OptionsSpec Dbl DblReal HandleModel HandleTable HandleWp HandleInv
  HandleSetters HandleSteps HandleGetters HandleFrame HandleGate HandleSolve HandleHist HandleCalls HandleHistory HandleGetSet HandleRange
  HandleSpec HandleReady2 HandleProperties UtausModel UtausProofs.
Import ListNotations.
Open Scope Z_scope.

(** Optical depth above level [k] of layers of thickness [ls], as the machine adds it up. *)
Definition depth (ls : list dbl) (k : nat) : dbl := fold_left dadd (firstn k ls) d_zero.
(** The layer holds the depth [u], with [snd p] below its top. *)
Definition contains (ls : list dbl) (u : dbl) (p : Z * dbl) : Prop :=
  0 <= fst p < Z.of_nat (length ls) /\
  let k := Z.to_nat (fst p) in
  dle (depth ls k) u = true /\
  (dlt u (depth ls (S k)) = true \/ S k = length ls /\ deq u (depth ls (S k)) = true) /\
  snd p = dsub u (depth ls k) /\
  (finite u -> dle d_zero (snd p) = true).
Definition number (x : dbl) : Prop := valid x /\ x <> S754_nan.

(** Outputs accepted by the readiness check ([depths_good], C11) are all placed, each in a
    layer that contains it, and no entry outside the table of depths is read. *)
Theorem C19_outputs_located : forall us ls, ls <> [] ->
  (forall l, In l ls -> number l /\ dle d_zero l = true) -> (forall u, In u us -> number u) ->
  depths_good true us ls ->
  exists r, place_outputs us ls = Some (map Some r) /\ Forall2 (contains ls) us r.
Proof.
  intros us ls NE HL HU (G1 & G2 & G3).
  assert (0 < length ls)%nat as Pos by (destruct ls; [congruence|cbn; lia]).
  assert (forall l, In l ls -> valid l /\ dle d_zero l = true) as HL' by (intros l L; destruct (HL l L) as [[? ?] ?]; auto).
  assert (forall k, (k <= length ls)%nat -> valid (depth ls k) /\ dle d_zero (depth ls k) = true) as VD.
  { intros k K. assert (forall y, In y (firstn k ls) -> valid y /\ dle d_zero y = true) as W.
    { intros y Y. apply HL'. rewrite <- (firstn_skipn k ls). apply in_or_app. auto. }
    split; [apply fold_valid; [reflexivity|intros; now apply W]|apply fold_nonneg; [reflexivity|reflexivity|auto]]. }
  assert (fold_left dadd ls d_zero <> S754_nan) as NT.
  { apply nan_le. rewrite <- (firstn_all ls). apply VD. auto. }
  assert (chain ls d_zero us) as C.
  { apply good_chain; [reflexivity|auto| | |].
    - destruct us as [|u us]; [exact Logic.I|]. destruct (G1 u eq_refl) as [K|[_ [K|K]]]; [auto|discriminate K|].
      destruct (HU u (or_introl eq_refl)) as [_ N]. contradiction.
    - intros u U. destruct (G2 u U) as [K|[_ [K|K]]]; [exact K|destruct (HU u U) as [_ N]; contradiction|contradiction].
    - intros i u v A B. destruct (G3 i u v A B) as [K|[_ [K|K]]]; auto; exfalso.
      + apply nth_error_In in A. destruct (HU u A) as [_ N]. contradiction.
      + apply nth_error_In in B. destruct (HU v B) as [_ N]. contradiction. }
  destruct (first_ok ls Pos (fun k K => proj1 (VD k K)) us d_zero 0 C ltac:(lia) eq_refl eq_refl) as (r & R1 & R2).
  destruct (second_ok ls Pos (fun k K => proj1 (VD k K)) us r) as (q & Q1 & Q2); auto.
  { left. assert (K := fold_step ls (length ls - 1) ltac:(lia) HL'). replace (S (length ls - 1)) with (length ls) in K by lia. exact K. }
  { intros u U. apply HU. auto. }
  assert (exists l, q = map Some l /\ Forall2 (located ls) us l) as (l & -> & F).
  { clear -Q2. induction Q2 as [|u p us q (x & -> & L) F (l & -> & IH)]; [exists []; split; [reflexivity|constructor]|].
    exists (x :: l). split; [reflexivity|constructor; auto]. }
  exists l. split; [unfold place_outputs; now rewrite R1|].
  assert (Forall (fun u => number u) us) as NU by (apply Forall_forall; auto).
  clear -F NU VD. induction F as [|u p us l (k & K1 & K2 & K3 & K4 & K5) F IH]; [constructor|].
  inversion_clear NU as [|? ? [Vu Nu] NU']. constructor; auto.
  unfold contains. rewrite K1. split; [lia|]. cbv zeta. rewrite Nat2Z.id.
  refine (conj K4 (conj _ (conj K3 _))).
  - destruct K5 as [K5|[K5 K6]]; [left|right; split; auto; now rewrite K5].
    apply not_dge; auto. apply nan_le. apply VD. lia.
  - intros FU. rewrite K3. destruct (VD k ltac:(lia)) as [A B]. apply dsub_nonneg; auto.
Qed.

(** For a handle: whenever a request for output at optical depths is accepted after the
    depths or the layers changed, the reported outputs can be placed. *)
Theorem C19_accepted_request_located : forall cosd acosd nodes a t h o v h',
  reach cosd acosd nodes a t h -> kind_of o = Solve -> runs o = true -> exec cosd acosd o h = Ret v h' ->
  has_opt (h_cfg h) OPT_OUTPUT_AT_TAUS = true -> depths_pending t ->
  exists us ls, depths_reported cosd acosd h us ls /\
    ((forall x, In x us \/ In x ls -> number x) ->
     exists r, place_outputs us ls = Some (map Some r) /\ Forall2 (contains ls) us r).
Proof.
  intros cosd acosd nodes a t h o v h' R K RU E OT DP.
  destruct (C11_accepted_means_specified _ _ _ _ _ _ _ _ _ R K RU E) as (_ & D & _).
  destruct (D OT DP) as (us & ls & DR & DG). exists us, ls. split; [exact DR|]. intros NUM.
  destruct DR as (_ & LEN & LT).
  assert (0 < c_n_layers (h_cfg h)) as NL.
  { destruct (reach_facts _ _ _ _ _ _ R) as (h0 & _ & _ & _ & I & _).
    pose proof (i_core _ _ I) as C. pose proof (cfg_dims _ _ (k_cfg _ C)) as KC. pose proof (g_nl _ (k_good _ C)).
    rewrite (de_nl _ _ KC). lia. }
  apply C19_outputs_located; auto.
  - intros ->. cbn in LEN. lia.
  - intros l L. split; [auto|]. apply In_nth with (d := d_zero) in L as (i & Li & <-).
    assert (W : within (Z.of_nat i) (c_n_layers (h_cfg h))) by (unfold within; lia).
    assert (P := C07_answers_in_documented_range _ _ _ _ _ _ (GetLtau (Z.of_nat i)) _ _ R eq_refl ltac:(discriminate) (LT _ W)).
    destruct P as (x & Ex & P). injection Ex as <-. unfold at1 in P. rewrite Nat2Z.id in P.
    assert (number (nth i ls d_zero)) as [_ NN] by (apply NUM; right; now apply nth_In).
    destruct P as [P|P]; [contradiction|now apply dlt_dle].
Qed.

(* ---- a concrete case: two layers of depth 1/2, outputs at 0, 3/4 and 1 ---- *)
Definition d_half : dbl := S754_finite false 4503599627370496 (-53).
Definition d_3q : dbl := S754_finite false 6755399441055744 (-53).
Example C19_case :
  (forall l, In l [d_half; d_half] -> number l /\ dle d_zero l = true) /\ (forall u, In u [d_zero; d_3q; d_one] -> number u) /\
  depths_good true [d_zero; d_3q; d_one] [d_half; d_half] /\
  place_outputs [d_zero; d_3q; d_one] [d_half; d_half]
    = Some [Some (0, d_zero); Some (1, S754_finite false 4503599627370496 (-54)); Some (1, d_half)].
Proof.
  refine (conj _ (conj _ (conj _ _))); [| | |vm_compute; reflexivity].
  - intros l [<-|[<-|[]]]; repeat split; discriminate.
  - intros u [<-|[<-|[<-|[]]]]; repeat split; discriminate.
  - refine (conj _ (conj _ _)).
    + intros u E. injection E as <-. left. reflexivity.
    + intros u [<-|[<-|[<-|[]]]]; left; reflexivity.
    + intros [|[|[|i]]] u v A B; try discriminate; injection A as <-; injection B as <-; left; reflexivity.
Qed.

(** A NaN output passes the setter and the readiness check (no comparison with it fails) and
    then makes the search read the entry before the table. *)
Theorem C19_nan_output_refuted : exists us ls, ls <> [] /\
  (forall l, In l ls -> number l /\ dle d_zero l = true) /\
  HandleSolve.depths_ok us ls = true /\ place_outputs us ls = None.
Proof.
  exists [S754_nan], [d_half]. refine (conj _ (conj _ (conj _ _))); [discriminate| |vm_compute; reflexivity..].
  intros l [<-|[]]; repeat split; discriminate.
Qed.
Print Assumptions C19_outputs_located.
Print Assumptions C19_accepted_request_located.
Print Assumptions C19_nan_output_refuted.
