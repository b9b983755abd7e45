(** C44: reverse mode through adding returns the gradient. *)
From Coq Require Import Reals Bool Arith Lia Lra List ZArith.
From Verif Require Import Base Dbl DerivsModel DerivsSpec DerivsProofs DerivsProperties DeltaMSpec DeltaMProofs BeamProofs
  AddingModel AddingSpec AddingMat AddingJoin AddingDeriv AddingLin AddingCalls AddingProperties RadianceModel RadianceSpec RadianceProofs RadianceProperties
  AddingAdjModel AddingAdjSpec AddingAdjMat AddingAdjPair AddingAdjLoops AddingAdjRad.
Import ListNotations.
Open Scope R_scope.

Lemma within_flagged : forall l s n x, within l s n (flagged l s x).
Proof. intros [] [] n x; refine (conj _ (conj _ (conj _ (conj _ (conj _ _))))); intros i; intros; reflexivity. Qed.
Lemma within_flagged_face : forall l s n x, within_face l s n (flagged_face l s x).
Proof. intros [] [] n x; split; intros i; intros; reflexivity. Qed.
Lemma carried_is : forall l s, (l = true -> s = true) -> carried l s = true.
Proof. intros [] [] H; try reflexivity. discriminate (H eq_refl). Qed.
Lemma up_codes : forall N (cs : nat -> Z) lv sv,
  (forall i, (i < N)%nat -> codes (cs i) (lv i = true) (sv i = true) (exists k, (i < k <= N)%nat /\ lv k = true) (exists k, (i < k <= N)%nat /\ sv k = true)) ->
  forall i, (i < N)%nat -> cs i = down_code (lv i) (sv i) (DerivsProofs.above i N lv) (DerivsProofs.above i N sv).
Proof.
  intros N cs lv sv H i Hi. rewrite down_code_eq. apply codes_are. eapply codes_iff; [| | | |exact (H i Hi)]; try reflexivity; symmetry; apply above_iff.
Qed.
Lemma up_read : forall N (lv sv : nat -> bool), (forall i, (i < N)%nat -> sv i = true -> exists k, (i < k <= N)%nat /\ sv k = true) ->
  forall i, (i < N)%nat -> unread (sv i) (DerivsProofs.above i N lv) (DerivsProofs.above i N sv) = false.
Proof.
  intros N lv sv H i Hi. unfold unread. destruct (sv i) eqn:E; [|reflexivity]. cbn [andb].
  assert (DerivsProofs.above i N sv = true) as -> by (apply above_iff, H; assumption). rewrite andb_false_r. reflexivity.
Qed.

(* ------------------------------------------------------------------------- *)
(** * Two layers, a layer and a face *)

(** layer_add_all_a, for any flags: what it adds to the adjoints of the two layers is the derivative of the weighted sum
    of the operators of the pair, whatever the adjoints held before. *)
Theorem C44_pair : forall n solve tsolve c l1 s1 l2 s2 a b z, solver n solve -> tsolver n tsolve -> regular n (Rm b) (Rp a) ->
  codes c (l1 = true) (s1 = true) (l2 = true) (s2 = true) ->
  let z' := layer_add_all_a n solve tsolve 1 c a b z in
  forall A B C x y p, A p = a -> B p = b -> lderiv n A p (flagged l1 s1 x) -> lderiv n B p (flagged l2 s2 y) ->
    around p (fun t => joins n (A t) (B t) (C t)) ->
    derivable_pt_lim (fun t => lweigh n (kc z) (C t)) p
      (lweigh n (ka z') (flagged l1 s1 x) - lweigh n (ka z) (flagged l1 s1 x) + (lweigh n (kb z') (flagged l2 s2 y) - lweigh n (kb z) (flagged l2 s2 y))).
Proof.
  intros n solve tsolve c l1 s1 l2 s2 a b z Sv Ts Rg Co z' A B C x y p EA EB DA DB J.
  assert (c = down_code l1 s1 l2 s2) as -> by (rewrite down_code_eq; apply codes_are, Co).
  pose proof (pair_right n solve tsolve Sv Ts l1 s1 l2 s2 a b _ _ z Rg (within_flagged l1 s1 n x) (within_flagged l2 s2 n y)) as E. cbv zeta in E. fold z' in E.
  subst a b. pose proof (join_deriv' n solve Sv A B p _ _ Rg DA DB) as D.
  assert (Nr : around p (fun t => regular n (Rm (B t)) (Rp (A t)))).
  { destruct DA as (_ & _ & _ & D4 & _). destruct DB as (D1 & _). apply (regular_around n (fun t => Rm (B t)) (fun t => Rp (A t)) p _ _ D1 D4 Rg). }
  apply (around_ext (fun t => lweigh n (kc z) (join n solve 1 (A t) (B t)))).
  - eapply around_imp; [|apply (around_and _ _ _ J Nr)]. intros t [Jt Rt]. apply lw_leq, determined.
    intros d1 u2 u1 d2 H. apply Jt. apply (joins_one n _ _ _ (join_sound n solve Sv 1 (A t) (B t) Rt)). exact H.
  - eapply dl_eq; [apply (lw_deriv n (kc z) _ p _ D)|]. lra.
Qed.
(** layer_add_ref_a, from either side: the sources of the layer vary if its operators do, the same of the face, and not
    those of the layer above a face that does not vary. *)
Theorem C44_face : forall n solve tsolve c (flag : bool) l1 s1 l2 s2 l f z, solver n solve -> tsolver n tsolve -> regular n (fR f) (Rp l) ->
  (l1 = true -> s1 = true) -> (l2 = true -> s2 = true) -> (s1 = true -> s2 = true) ->
  (if flag then codes c (l2 = true) (s2 = true) (l1 = true) (s1 = true) else codes c (l1 = true) (s1 = true) (l2 = true) (s2 = true)) ->
  let z' := layer_add_ref_a n solve tsolve 1 c flag l f z in
  forall A B C x g p, A p = l -> B p = f -> lderiv n A p (flagged l1 s1 x) -> fderiv n B p (flagged_face l2 s2 g) ->
    around p (fun t => forall d u, reflects n (C t) d u <-> exists d2 u2, interacts n (A t) d u2 u d2 /\ reflects n (B t) d2 u2) ->
    derivable_pt_lim (fun t => fweigh n (qc z) (C t)) p
      (lweigh n (qa z') (flagged l1 s1 x) - lweigh n (qa z) (flagged l1 s1 x) + (fweigh n (qb z') (flagged_face l2 s2 g) - fweigh n (qb z) (flagged_face l2 s2 g))).
Proof.
  intros n solve tsolve c flag l1 s1 l2 s2 l f z Sv Ts Rg H1 H2 H3 Co z' A B C x g p EA EB DA DB J.
  assert (c = ref_code flag l1 s1 l2 s2) as -> by (unfold ref_code; destruct flag; rewrite down_code_eq; apply codes_are, Co).
  destruct (regular_inverse n _ _ Rg) as (ip & P1 & P2).
  assert (unread s1 l2 s2 = false) as Un by (unfold unread; destruct s1; [rewrite (H3 eq_refl), andb_false_r|]; reflexivity).
  pose proof (ref_right n solve tsolve Sv Ts l (flagged l1 s1 x) f (flagged_face l2 s2 g) ip z P1 P2 flag l1 s1 l2 s2 (carried_is _ _ H1) (carried_is _ _ H2) Un
    (within_flagged l1 s1 n x) (within_flagged_face l2 s2 n g)) as E. fold z' in E.
  subst l f. pose proof (join_face_deriv n solve Sv A B p _ _ Rg DA DB) as D.
  assert (Nr : around p (fun t => regular n (fR (B t)) (Rp (A t)))).
  { destruct DA as (_ & _ & _ & D4 & _). destruct DB as (D1 & _). apply (regular_around n (fun t => fR (B t)) (fun t => Rp (A t)) p _ _ D1 D4 Rg). }
  apply (around_ext (fun t => fweigh n (qc z) (join_face n solve (A t) (B t)))).
  - eapply around_imp; [|apply (around_and _ _ _ J Nr)]. intros t [Jt Rt]. apply fw_feq, determined_face.
    intros d u H. apply Jt. apply (join_face_sound n solve (A t) (B t) Sv Rt). exact H.
  - eapply dl_eq; [apply (fw_deriv n (qc z) _ p _ D)|]. lra.
Qed.

(* ------------------------------------------------------------------------- *)
(** * All layers *)

(** get_total_R_T_S_U_W_V_a: what is handed to the layers is the gradient of a weighted sum of the entries of the
    operators of all layers. *)
Theorem C44_all_layers : forall n solve tsolve m ls cs lv sv w, solver n solve -> tsolver n tsolve ->
  (forall k c, (k < m)%nat -> stands_for n k ls c -> regular n (Rm (ls (S k))) (Rp c)) ->
  (forall i, (i <= m)%nat -> lv i = true -> sv i = true) ->
  (forall i, (0 < i <= m)%nat -> codes (cs i) (exists k, (k < i)%nat /\ lv k = true) (exists k, (k < i)%nat /\ sv k = true) (lv i = true) (sv i = true)) ->
  let out := given (total_a n solve tsolve (S m) ls cs w) in
  forall (F : R -> nat -> layer) (C : R -> layer) d p, (forall i, F p i = ls i) ->
    (forall i, (i <= m)%nat -> lderiv n (fun t => F t i) p (flagged (lv i) (sv i) (d i))) ->
    around p (fun t => stands_for n m (F t) (C t)) ->
    derivable_pt_lim (fun t => lweigh n w (C t)) p (total (S m) (fun i => lweigh n (out i) (flagged (lv i) (sv i) (d i)))).
Proof.
  intros n solve tsolve m ls cs lv sv w Sv Ts Rg Ca Co out F C d p EF DF A.
  pose proof (chain_regular n solve Sv ls m Rg) as Reg.
  eapply dl_eq; [apply (chain_any n solve Sv ls m Reg F (fun i => flagged (lv i) (sv i) (d i)) p EF DF w C A)|].
  apply (total_a_right n solve tsolve Sv Ts ls m Reg lv sv cs).
  - intros i Hi. apply carried_is, Ca, Hi.
  - intros i Hi. apply down_code_is, Co, Hi.
  - intros i Hi. apply within_flagged.
Qed.
(** get_total_TOA_R_S_U_V_a above a surface; what is added to the adjoint of the surface is the rest of the gradient. *)
Theorem C44_above_surface : forall n solve tsolve N ls cs lv sv f f_a w, solver n solve -> tsolver n tsolve ->
  (forall k c, (k < N)%nat -> tops n (N - S k) ls f (S k) c -> regular n (fR c) (Rp (ls k))) ->
  (forall i, (i <= N)%nat -> lv i = true -> sv i = true) ->
  (forall i, (i < N)%nat -> sv i = true -> exists k, (i < k <= N)%nat /\ sv k = true) ->
  (forall i, (i < N)%nat -> codes (cs i) (lv i = true) (sv i = true) (exists k, (i < k <= N)%nat /\ lv k = true) (exists k, (i < k <= N)%nat /\ sv k = true)) ->
  let out := toa_a n solve tsolve N ls (Some f) cs w f_a in
  forall (F : R -> nat -> layer) (G C : R -> face) d g p, (forall i, F p i = ls i) -> G p = f ->
    (forall i, (i < N)%nat -> lderiv n (fun t => F t i) p (flagged (lv i) (sv i) (d i))) -> fderiv n G p (flagged_face (lv N) (sv N) g) ->
    around p (fun t => tops n N (F t) (G t) 0 (C t)) ->
    derivable_pt_lim (fun t => fweigh n w (C t)) p
      (total N (fun i => lweigh n (fst out i) (flagged (lv i) (sv i) (d i))) +
       (fweigh n (snd out) (flagged_face (lv N) (sv N) g) - fweigh n f_a (flagged_face (lv N) (sv N) g))).
Proof.
  intros n solve tsolve N ls cs lv sv f f_a w Sv Ts Rg Ca Se Co out F G C d g p EF EG DF DG A.
  pose proof (stack_regular n solve Sv ls f N Rg) as Reg.
  eapply dl_eq; [apply (stack_any n solve Sv ls f N Reg F G (fun i => flagged (lv i) (sv i) (d i)) _ p EF EG DF DG w C A)|].
  apply (toa_a_surface n solve tsolve Sv Ts ls _ lv sv cs N f _ Reg).
  - intros i Hi. apply carried_is, Ca, Hi.
  - apply up_codes, Co.
  - apply up_read, Se.
  - intros i Hi. apply within_flagged.
  - apply within_flagged_face.
Qed.
(** ... and without a surface, with nothing coming from below *)
Theorem C44_from_above : forall n solve tsolve m ls cs lv sv f_a w, solver n solve -> tsolver n tsolve ->
  (forall k c, (k < m)%nat -> tops n (m - S k) ls (top_face (ls m)) (S k) c -> regular n (fR c) (Rp (ls k))) ->
  (forall i, (i <= m)%nat -> lv i = true -> sv i = true) ->
  (forall i, (i < m)%nat -> sv i = true -> exists k, (i < k <= m)%nat /\ sv k = true) ->
  (forall i, (i < m)%nat -> codes (cs i) (lv i = true) (sv i = true) (exists k, (i < k <= m)%nat /\ lv k = true) (exists k, (i < k <= m)%nat /\ sv k = true)) ->
  let out := toa_a n solve tsolve (S m) ls None cs w f_a in
  snd out = f_a /\
  forall (F : R -> nat -> layer) (C : R -> face) d p, (forall i, F p i = ls i) ->
    (forall i, (i <= m)%nat -> lderiv n (fun t => F t i) p (flagged (lv i) (sv i) (d i))) ->
    around p (fun t => top_of n m (F t) (C t)) ->
    derivable_pt_lim (fun t => fweigh n w (C t)) p (total (S m) (fun i => lweigh n (fst out i) (flagged (lv i) (sv i) (d i)))).
Proof.
  intros n solve tsolve m ls cs lv sv f_a w Sv Ts Rg Ca Se Co out.
  pose proof (stack_regular n solve Sv ls (top_face (ls m)) m Rg) as Reg.
  pose proof (fun d => toa_a_open n solve tsolve Sv Ts ls d lv sv cs m Reg (fun i Hi => carried_is _ _ (Ca i Hi)) (up_codes m cs lv sv Co) (up_read m lv sv Se) w f_a) as R0.
  split; [apply (R0 (fun i => flagged (lv i) (sv i) no_layer)); intros; apply within_flagged|].
  intros F C d p EF DF A.
  assert (DG : fderiv n (fun t => top_face (F t m)) p (top_face (flagged (lv m) (sv m) (d m)))).
  { destruct (DF m (le_n m)) as (D1 & _ & _ & _ & _ & D6). split; assumption. }
  eapply dl_eq; [apply (stack_any n solve Sv ls (top_face (ls m)) m Reg F (fun t => top_face (F t m)) (fun i => flagged (lv i) (sv i) (d i)) (top_face (flagged (lv m) (sv m) (d m))) p EF) with (c := C)|].
  - cbv beta. rewrite EF. reflexivity.
  - intros i Hi. apply DF. lia.
  - exact DG.
  - eapply around_imp; [|exact A]. intros t X dn u. rewrite (X dn u). symmetry. apply above_through.
  - apply (R0 (fun i => flagged (lv i) (sv i) (d i))). intros. apply within_flagged.
Qed.

(* ------------------------------------------------------------------------- *)
(** * The radiances *)

(** [res]: what is handed to the layers, the adjoint of the surface (reflection and what it emits, the latter [b_a]
    before) and that of what falls on the top ([t_a] before).  They are the gradient of the weighted sum of the
    upward radiance at the top, weights [gp], and of the downward one, weights [gm]. *)
Definition bottom_up_gradient n m ls f t (lv sv : nat -> bool) gp gm t_a b_a (res : (nat -> layer) * face * vec) : Prop :=
  forall (F : R -> nat -> layer) (G : R -> face) (T U : R -> vec) d g t' p, (forall i, F p i = ls i) -> G p = f -> T p = t ->
    (forall i, (i <= m)%nat -> lderiv n (fun s => F s i) p (flagged (lv i) (sv i) (d i))) ->
    fderiv n G p (flagged_face (lv (S m)) (sv (S m)) g) -> vderiv n T p t' ->
    around p (fun s => exists dm um, field n m (F s) (G s) (T s) (U s) dm um) ->
    derivable_pt_lim (fun s => vweigh n gp (U s) + vweigh n gm (T s)) p
      (total (S m) (fun i => lweigh n (fst (fst res) i) (flagged (lv i) (sv i) (d i))) +
       (fweigh n (snd (fst res)) (flagged_face (lv (S m)) (sv (S m)) g) - vweigh n b_a (fS (flagged_face (lv (S m)) (sv (S m)) g))) +
       (vweigh n (snd res) t' - vweigh n t_a t')).
Theorem C44_bottom_up : forall n solve tsolve m ls cs lv sv Rs t b gp gm t_a b_a, solver n solve -> tsolver n tsolve ->
  let f := {| fR := Rs; fS := b |} in
  (forall k c, (k < S m)%nat -> tops n (S m - S k) ls f (S k) c -> regular n (fR c) (Rp (ls k))) ->
  (forall i, (i <= S m)%nat -> lv i = true -> sv i = true) ->
  (forall i, (i < S m)%nat -> sv i = true -> exists k, (i < k <= S m)%nat /\ sv k = true) ->
  (forall i, (i < S m)%nat -> codes (cs i) (lv i = true) (sv i = true) (exists k, (i < k <= S m)%nat /\ lv k = true) (exists k, (i < k <= S m)%nat /\ sv k = true)) ->
  bottom_up_gradient n m ls f t lv sv gp gm t_a b_a (bottom_up_a n solve tsolve (S m) ls cs (Some Rs) t b gp gm t_a b_a).
Proof.
  intros n solve tsolve m ls cs lv sv Rs t b gp gm t_a b_a Sv Ts f Rg Ca Se Co F G T U d g t' p EF EG ET DF DG DT A.
  pose proof (stack_regular n solve Sv ls f (S m) Rg) as Reg.
  set (fd i := flagged (lv i) (sv i) (d i)) in *. set (fg := flagged_face (lv (S m)) (sv (S m)) g) in *.
  assert (DF' : forall i, (i < S m)%nat -> lderiv n (fun s => F s i) p (fd i)) by (intros i Hi; apply DF; lia).
  pose proof (stack_tops_near n solve Sv ls f (S m) Reg F G fd fg p EF EG DF' DG) as Tn.
  pose proof (stack_all n solve Sv ls f (S m) Reg F G fd fg p EF EG DF' DG) as Dn.
  pose proof (stack_at n solve ls f F G p EF EG (S m) 0) as Ep.
  set (C s := stack n solve (F s) (G s) (S m) 0) in *. set (y := stack n solve ls f (S m) 0) in *. change (C p = y) in Ep.
  set (dy := dstack n solve ls f fd fg (S m) 0) in *.
  assert (E0 : exists y_l, toa_surface n solve (S m) 0 ls (fun _ _ => no_layer) (fun _ _ => 0%Z) f (fun _ => no_face) = Ok (y, y_l)).
  { destruct (surface_is n solve Sv ls f (S m) Reg 0 (fun _ => no_face) ltac:(lia)) as (y_l & E). exists y_l. exact E. }
  destruct E0 as (y_l & E0). unfold bottom_up_a. fold f. rewrite E0.
  match goal with |- context [toa_ref_a n ?a ?b ?c ?d ?e ?h] => pose proof (toa_ref_a_right n a b c d e h (fR dy) (fS dy) t') as Et; destruct (toa_ref_a n a b c d e h) as [[R_a S_a] t1] end.
  cbv zeta in Et. cbn [fst snd] in Et.
  pose proof (toa_a_surface n solve tsolve Sv Ts ls fd lv sv cs (S m) f fg Reg (fun i Hi => carried_is _ _ (Ca i Hi)) (up_codes (S m) cs lv sv Co) (up_read (S m) lv sv Se)
    {| fR := R_a; fS := S_a |} {| fR := zmat; fS := b_a |} (fun i _ => within_flagged _ _ n _) (within_flagged_face _ _ n _)) as El.
  cbv zeta in El. destruct (toa_a n solve tsolve (S m) ls (Some f) cs _ _) as [out f_a]. cbn [fst snd] in El |- *.
  fold dy in El. unfold fweigh in El. cbn [fR fS] in El.
  apply (around_ext (fun s => vweigh n gp (toa_ref n (fR (C s)) (fS (C s)) (T s)) + vweigh n gm (T s))).
  - eapply around_imp; [|apply (around_and _ _ _ A Tn)]. intros s [X Y]. f_equal. apply vweigh_proper; [intros i _; reflexivity|].
    apply above_field in X. apply Y in X. intros i Hi. rewrite (X i Hi). reflexivity.
  - destruct Dn as [D1 D2].
    assert (Dt : vderiv n (fun s => toa_ref n (fR (C s)) (fS (C s)) (T s)) p (vadd (vadd (mv n (fR dy) t) (mv n (fR y) t')) (fS dy))).
    { eapply vderiv_ext; [|unfold toa_ref; apply vderiv_add; [apply vderiv_mv; [exact D1|exact DT]|exact D2]]. cbv beta. rewrite Ep, ET. intros i Hi. reflexivity. }
    eapply dl_eq; [apply (derivable_pt_lim_plus (fun s => vweigh n gp (toa_ref n (fR (C s)) (fS (C s)) (T s))) (fun s => vweigh n gm (T s))); apply vw_deriv; [exact Dt|exact DT]|].
    unfold fweigh. rewrite !vw_add_l in Et. rewrite mw_zero_l, vw_zero_l in Et. rewrite mw_zero_l in El. unfold fd in El. lra.
Qed.
(** Without a surface nothing comes from below: [b] is not read and its adjoint stays as it was. *)
Definition bottom_up_open_gradient n m ls t (lv sv : nat -> bool) gp gm t_a b_a (res : (nat -> layer) * face * vec) : Prop :=
  snd (fst res) = {| fR := zmat; fS := b_a |} /\
  forall (F : R -> nat -> layer) (T U : R -> vec) d t' p, (forall i, F p i = ls i) -> T p = t ->
    (forall i, (i <= m)%nat -> lderiv n (fun s => F s i) p (flagged (lv i) (sv i) (d i))) -> vderiv n T p t' ->
    around p (fun s => exists dm, through n m (F s) (T s) zvec (U s) dm) ->
    derivable_pt_lim (fun s => vweigh n gp (U s) + vweigh n gm (T s)) p
      (total (S m) (fun i => lweigh n (fst (fst res) i) (flagged (lv i) (sv i) (d i))) + (vweigh n (snd res) t' - vweigh n t_a t')).
Theorem C44_bottom_up_open : forall n solve tsolve m ls cs lv sv t b gp gm t_a b_a, solver n solve -> tsolver n tsolve ->
  (forall k c, (k < m)%nat -> tops n (m - S k) ls (top_face (ls m)) (S k) c -> regular n (fR c) (Rp (ls k))) ->
  (forall i, (i <= m)%nat -> lv i = true -> sv i = true) ->
  (forall i, (i < m)%nat -> sv i = true -> exists k, (i < k <= m)%nat /\ sv k = true) ->
  (forall i, (i < m)%nat -> codes (cs i) (lv i = true) (sv i = true) (exists k, (i < k <= m)%nat /\ lv k = true) (exists k, (i < k <= m)%nat /\ sv k = true)) ->
  bottom_up_open_gradient n m ls t lv sv gp gm t_a b_a (bottom_up_a n solve tsolve (S m) ls cs None t b gp gm t_a b_a).
Proof.
  intros n solve tsolve m ls cs lv sv t b gp gm t_a b_a Sv Ts Rg Ca Se Co.
  pose proof (stack_regular n solve Sv ls (top_face (ls m)) m Rg) as Reg. set (f := top_face (ls m)) in *.
  set (y := stack n solve ls f m 0).
  assert (E0 : exists y_l, toa n solve (S m) 0 ls (fun _ _ => no_layer) (fun _ _ => false) (fun _ _ => false) (fun _ _ => 0%Z) no_face (fun _ => no_face) = Ok (y, y_l)).
  { destruct (open_is n solve Sv ls m Reg 0 ltac:(lia)) as (y_l & E). rewrite !Nat.sub_0_r in E. exists y_l. exact E. }
  destruct E0 as (y_l & E0). unfold bottom_up_a. rewrite E0.
  pose proof (fun d w W => toa_a_open n solve tsolve Sv Ts ls d lv sv cs m Reg (fun i Hi => carried_is _ _ (Ca i Hi)) (up_codes m cs lv sv Co) (up_read m lv sv Se)
    w {| fR := zmat; fS := b_a |} W) as R0. cbv zeta in R0.
  match goal with |- context [toa_ref_a n ?a ?b ?c ?d ?e ?h] => pose proof (toa_ref_a_right n a b c d e h) as Et; destruct (toa_ref_a n a b c d e h) as [[R_a S_a] t1] end.
  cbv zeta in Et. cbn [fst snd] in Et.
  specialize (fun d => R0 d {| fR := R_a; fS := S_a |}).
  destruct (toa_a n solve tsolve (S m) ls None cs _ _) as [out f_a]. cbn [fst snd] in R0. unfold bottom_up_open_gradient. cbn [fst snd].
  split; [apply (R0 (fun i => flagged (lv i) (sv i) no_layer)); intros; apply within_flagged|].
  intros F T U d t' p EF ET DF DT A. set (fd i := flagged (lv i) (sv i) (d i)) in *.
  destruct (R0 fd ltac:(intros; apply within_flagged)) as [El _].
  assert (DG : fderiv n (fun t => top_face (F t m)) p (top_face (fd m))).
  { destruct (DF m (le_n m)) as (D1 & _ & _ & _ & _ & D6). split; assumption. }
  assert (EG : (fun t => top_face (F t m)) p = f) by (cbv beta; rewrite EF; reflexivity).
  assert (DF' : forall i, (i < m)%nat -> lderiv n (fun s => F s i) p (fd i)) by (intros i Hi; apply DF; lia).
  pose proof (stack_tops_near n solve Sv ls f m Reg F _ fd _ p EF EG DF' DG) as Tn.
  pose proof (stack_all n solve Sv ls f m Reg F _ fd _ p EF EG DF' DG) as Dn.
  pose proof (stack_at n solve ls f F _ p EF EG m 0) as Ep. cbv beta in Tn, Dn, Ep.
  set (C s := stack n solve (F s) (top_face (F s m)) m 0) in *. change (C p = y) in Ep.
  set (dy := dstack n solve ls f fd (top_face (fd m)) m 0) in *. specialize (Et (fR dy) (fS dy) t').
  unfold fweigh in El. cbn [fR fS] in El.
  apply (around_ext (fun s => vweigh n gp (toa_ref n (fR (C s)) (fS (C s)) (T s)) + vweigh n gm (T s))).
  - eapply around_imp; [|apply (around_and _ _ _ A Tn)]. intros s [X Y]. f_equal. apply vweigh_proper; [intros i _; reflexivity|].
    apply above_through in X. apply Y in X. intros i Hi. rewrite (X i Hi). reflexivity.
  - destruct Dn as [D1 D2].
    assert (Dt : vderiv n (fun s => toa_ref n (fR (C s)) (fS (C s)) (T s)) p (vadd (vadd (mv n (fR dy) t) (mv n (fR y) t')) (fS dy))).
    { eapply vderiv_ext; [|unfold toa_ref; apply vderiv_add; [apply vderiv_mv; [exact D1|exact DT]|exact D2]]. cbv beta. rewrite Ep, ET. intros i Hi. reflexivity. }
    eapply dl_eq; [apply (derivable_pt_lim_plus (fun s => vweigh n gp (toa_ref n (fR (C s)) (fS (C s)) (T s))) (fun s => vweigh n gm (T s))); apply vw_deriv; [exact Dt|exact DT]|].
    rewrite !vw_add_l in Et. rewrite mw_zero_l, vw_zero_l in Et. fold f in El. change (dstack n solve ls f fd (top_face (fd m)) m 0) with dy in El. unfold fd in El. lra.
Qed.

(** Both ways: the weights [gp], [gm] of the upward and the downward radiances at the output levels *)
Definition both_ways_gradient n m nu ul ls f t (lv sv : nat -> bool) gp gm t_a b_a (res : (nat -> layer) * face * vec) : Prop :=
  forall (F : R -> nat -> layer) (G : R -> face) (T U0 D U : R -> vec) (P M : R -> nat -> vec) d g t' p, (forall i, F p i = ls i) -> G p = f -> T p = t ->
    (forall i, (i <= m)%nat -> lderiv n (fun s => F s i) p (flagged (lv i) (sv i) (d i))) -> fderiv n G p g -> vderiv n T p t' ->
    around p (fun s => field n m (F s) (G s) (T s) (U0 s) (D s) (U s)) ->
    (forall s, shows (S m) nu ul (P s) (M s) (U0 s) (T s) (U s) (D s)) ->
    derivable_pt_lim (fun s => total nu (fun i => vweigh n (gp i) (P s i) + vweigh n (gm i) (M s i))) p
      (total (S m) (fun i => lweigh n (fst (fst res) i) (flagged (lv i) (sv i) (d i))) + (fweigh n (snd (fst res)) g - vweigh n b_a (fS g)) +
       (vweigh n (snd res) t' - vweigh n t_a t')).
Theorem C44_both_ways : forall n solve tsolve m nu ul ls cs lv sv Rs t b gp gm t_a b_a, (0 < n)%nat -> solver n solve -> tsolver n tsolve ->
  let f := {| fR := Rs; fS := b |} in
  (forall k c, (k < m)%nat -> stands_for n k ls c -> regular n (Rm (ls (S k))) (Rp c)) ->
  (forall c, stands_for n m ls c -> regular n (Rp c) Rs) ->
  (forall i, (i <= m)%nat -> lv i = true -> sv i = true) ->
  (forall i, (0 < i <= m)%nat -> codes (cs i) (exists k, (k < i)%nat /\ lv k = true) (exists k, (k < i)%nat /\ sv k = true) (lv i = true) (sv i = true)) ->
  ends_only (S m) nu ul ->
  both_ways_gradient n m nu ul ls f t lv sv gp gm t_a b_a (both_ways_a n solve tsolve (S m) nu ul ls cs (Some Rs) t b gp gm t_a b_a).
Proof.
  intros n solve tsolve m nu ul ls cs lv sv Rs t b gp gm t_a b_a Hn Sv Ts f Rg Rs' Ca Co En F G T U0 D U P M d g t' p EF EG ET DF DG DT A Sh.
  pose proof (chain_regular n solve Sv ls m Rg) as Reg. set (fd i := flagged (lv i) (sv i) (d i)) in *.
  pose proof (chain_deriv n solve Sv ls m Reg F fd p EF DF m (le_n m)) as Dc.
  pose proof (chain_near n solve Sv ls m Reg F fd p EF DF m (le_n m)) as Nc.
  pose proof (chain_at n solve ls F p EF m) as Ec.
  set (C s := chain n solve (F s) m) in *. set (y := chain n solve ls m) in *. change (C p = y) in Ec. set (c' := dchain n solve ls fd m) in *.
  assert (regular n (Rp y) (fR f)) as Ry by (apply Rs', (chain_stands n solve Sv ls m), Reg).
  destruct (reg_inverse n y f Ry) as (q & Q1 & Q2).
  assert (A' : around p (fun s => interacts n (C s) (T s) (U s) (U0 s) (D s) /\ reflects n (G s) (D s) (U s))).
  { eapply around_imp; [|apply (around_and _ _ _ A Nc)]. intros s [[X Y] Z]. split; [|exact Y]. apply (chain_stands n solve Sv (F s) m Z). exact X. }
  pose proof (both_field n solve Sv Hn y c' f g t t' Ry C G T p q Ec EG ET Dc DG DT Q1 Q2 U0 D U A') as Db.
  set (top := d_top n solve y c' f g t t' q) in *. set (up := d_up n solve y c' f g t t' q) in *. set (dn := d_down n solve y c' f g t t' q) in *.
  set (P' i := if Nat.eqb (ul i) 0 then top else up). set (M' i := if Nat.eqb (ul i) 0 then t' else dn).
  assert (Sh' : shows (S m) nu ul P' M' top t' up dn).
  { intros i Hi. unfold P', M'. split; intros ->; cbn [Nat.eqb]; split; reflexivity. }
  assert (Ends : forall i, (i < nu)%nat -> ul i = 0%nat \/ ul i = S m).
  { destruct En as (_ & [(-> & H)|(-> & H0 & H1)]); intros i Hi; [assert (i = 0%nat) as -> by lia; exact H|]. destruct i as [|[|i]]; [tauto|tauto|lia]. }
  unfold both_ways_a. rewrite (sum_of_is n solve Sv ls m Reg m (le_n m)). cbv zeta. fold y. cbn [fst snd].
  set (s0 := {| ya := no_layer; yR := zmat; y1 := t_a; yn := b_a; gps := gp; gms := gm |}). fold f.
  pose proof (both_surface_right n solve tsolve Ts Hn y c' f g t t' q (S m) nu ul s0 P' M' Q1 Q2 En Sh') as Eb. cbv zeta in Eb.
  change (boa_all n solve (Rp y) (Tm y) (fR f) (Sm y) (fS f) t) with (boa_all n solve (Rp y) (Tm y) Rs (Sm y) b t) in Eb.
  match type of Eb with context [both_surface_a n tsolve ?a ?b ?c ?d ?e ?h ?i ?j ?k] => set (s1 := both_surface_a n tsolve a b c d e h i j k) in * end.
  unfold s0 in Eb.
  cbn [ya yR y1 yn gps gms] in Eb. unfold lweigh at 2 in Eb. cbn [no_layer Rm Tm Sm Rp Tp Sp] in Eb. rewrite !mw_zero_l, !vw_zero_l in Eb.
  pose proof (total_a_right n solve tsolve Sv Ts ls m Reg lv sv cs fd (fun i Hi => carried_is _ _ (Ca i Hi)) (fun i Hi => down_code_is i _ _ _ _ _ (Co i Hi)) (fun i _ => within_flagged _ _ n _) (ya s1)) as El.
  fold c' in El. unfold fweigh. cbn [fR fS].
  eapply dl_eq; [apply (dl_sum nu _ p (fun i => vweigh n (gp i) (P' i) + vweigh n (gm i) (M' i)))|unfold fd in El; lra].
  intros i Hi. destruct (Ends i Hi) as [E|E].
  - unfold P', M'. rewrite E. cbn [Nat.eqb]. apply (derivable_pt_lim_ext (fun s => vweigh n (gp i) (U0 s) + vweigh n (gm i) (T s))).
    { intros s. destruct (proj1 (Sh s i Hi) E) as [-> ->]. reflexivity. }
    apply (derivable_pt_lim_plus (fun s => vweigh n (gp i) (U0 s)) (fun s => vweigh n (gm i) (T s))); [apply Db|apply vw_deriv, DT].
  - unfold P', M'. rewrite E. cbn [Nat.eqb]. apply (derivable_pt_lim_ext (fun s => vweigh n (gp i) (U s) + vweigh n (gm i) (D s))).
    { intros s. destruct (proj2 (Sh s i Hi) E) as [-> ->]. reflexivity. }
    apply (derivable_pt_lim_plus (fun s => vweigh n (gp i) (U s)) (fun s => vweigh n (gm i) (D s))); apply Db.
Qed.
(** Without a surface, output at the top: [b] comes from below. *)
Definition top_gradient n m ls t b (lv sv : nat -> bool) gp gm t_a b_a (res : (nat -> layer) * face * vec) : Prop :=
  forall (F : R -> nat -> layer) (T B U0 : R -> vec) d b' t' p, (forall i, F p i = ls i) -> B p = b -> T p = t ->
    (forall i, (i <= m)%nat -> lderiv n (fun s => F s i) p (flagged (lv i) (sv i) (d i))) -> vderiv n B p b' -> vderiv n T p t' ->
    around p (fun s => exists dm, through n m (F s) (T s) (B s) (U0 s) dm) ->
    derivable_pt_lim (fun s => vweigh n gp (U0 s) + vweigh n gm (T s)) p
      (total (S m) (fun i => lweigh n (fst (fst res) i) (flagged (lv i) (sv i) (d i))) + (vweigh n (fS (snd (fst res))) b' - vweigh n b_a b') +
       (vweigh n (snd res) t' - vweigh n t_a t')).
Theorem C44_both_ways_open_top : forall n solve tsolve m ul ls cs lv sv t b gp gm t_a b_a, solver n solve -> tsolver n tsolve ->
  (forall k c, (k < m)%nat -> stands_for n k ls c -> regular n (Rm (ls (S k))) (Rp c)) ->
  (forall i, (i <= m)%nat -> lv i = true -> sv i = true) ->
  (forall i, (0 < i <= m)%nat -> codes (cs i) (exists k, (k < i)%nat /\ lv k = true) (exists k, (k < i)%nat /\ sv k = true) (lv i = true) (sv i = true)) ->
  ul 0%nat = 0%nat ->
  top_gradient n m ls t b lv sv (gp 0%nat) (gm 0%nat) t_a b_a (both_ways_a n solve tsolve (S m) 1 ul ls cs None t b gp gm t_a b_a).
Proof.
  intros n solve tsolve m ul ls cs lv sv t b gp gm t_a b_a Sv Ts Rg Ca Co U F T B U0 d b' t' p EF EB ET DF DB DT A.
  pose proof (chain_regular n solve Sv ls m Rg) as Reg. set (fd i := flagged (lv i) (sv i) (d i)) in *.
  pose proof (chain_deriv n solve Sv ls m Reg F fd p EF DF m (le_n m)) as Dc.
  pose proof (chain_near n solve Sv ls m Reg F fd p EF DF m (le_n m)) as Nc.
  pose proof (chain_at n solve ls F p EF m) as Ec.
  set (C s := chain n solve (F s) m) in *. set (y := chain n solve ls m) in *. change (C p = y) in Ec. set (c' := dchain n solve ls fd m) in *.
  unfold both_ways_a. rewrite (sum_of_is n solve Sv ls m Reg m (le_n m)). cbv zeta. fold y. unfold both_slab_a. cbn [loop]. rewrite U. cbn [Nat.eqb].
  cbn [ya yR y1 yn gps gms].
  match goal with |- context [slab_a n ?a ?b ?c ?d ?e ?h] => pose proof (slab_a_right n a b c d e h (Rm c') (Tp c') (Sp c') t' b') as E1; cbv zeta in E1; set (z1 := slab_a n a b c d e h) in * end.
  cbn [hR hT hS h1 h2 no_layer Rm Tp Sp] in E1. rewrite vw_add_l, !mw_zero_l, (vw_zero_l n (Sp c')) in E1. cbn [fst snd].
  match goal with |- context [total_a n solve tsolve (S m) ls cs ?x] =>
    pose proof (total_a_right n solve tsolve Sv Ts ls m Reg lv sv cs fd (fun i Hi => carried_is _ _ (Ca i Hi)) (fun i Hi => down_code_is i _ _ _ _ _ (Co i Hi)) (fun i _ => within_flagged _ _ n _) x) as El end.
  fold c' in El. unfold lweigh at 1 in El. cbn [no_layer Rm Tm Sm Rp Tp Sp] in El. rewrite !mw_zero_l, (vw_zero_l n (Sm c')) in El. cbn [fS].
  assert (Ds : vderiv n (fun s => slab n (Rm (C s)) (Tp (C s)) (Sp (C s)) (T s) (B s)) p (dslab n (Rm y) (Tp y) t b (Rm c') (Tp c') (Sp c') t' b')).
  { destruct Dc as (D1 & D2 & D3 & D4 & D5 & D6). eapply vderiv_ext; [|apply slab_deriv; [exact D1|exact D5|exact D6|exact DT|exact DB]].
    cbv beta. rewrite Ec, ET, EB. intros i Hi. reflexivity. }
  apply (around_ext (fun s => vweigh n (gp 0%nat) (slab n (Rm (C s)) (Tp (C s)) (Sp (C s)) (T s) (B s)) + vweigh n (gm 0%nat) (T s))).
  - eapply around_imp; [|apply (around_and _ _ _ A Nc)]. intros s [[dm X] Z]. f_equal. apply vweigh_proper; [intros i _; reflexivity|].
    apply (chain_stands n solve Sv (F s) m Z) in X. intros i Hi. destruct (X i Hi) as [-> _]. reflexivity.
  - eapply dl_eq; [apply (derivable_pt_lim_plus (fun s => vweigh n (gp 0%nat) (slab n (Rm (C s)) (Tp (C s)) (Sp (C s)) (T s) (B s))) (fun s => vweigh n (gm 0%nat) (T s))); apply vw_deriv; [exact Ds|exact DT]|].
    cbn [no_layer Tm Sm Rp]. unfold fd in El. lra.
Qed.

(* ------------------------------------------------------------------------- *)
(** * With the unions of a handle *)

Lemma small : forall v, (forall p, (4 <= p)%Z -> Z.testbit v p = false) -> (0 <= v < 16)%Z.
Proof.
  intros v H. assert (v = v mod 2 ^ 4)%Z as ->; [|apply Z.mod_pos_bound; reflexivity].
  apply Z.bits_inj'. intros p Hp. destruct (Z.lt_ge_cases p 4) as [L|G].
  - rewrite Z.mod_pow2_bits_low by exact L. reflexivity.
  - rewrite Z.mod_pow2_bits_high by lia. apply H, G.
Qed.
Lemma high_bits : forall v A B C D p, codes v A B C D -> (4 <= p)%Z -> Z.testbit v p = false.
Proof.
  intros v A B C D p [[H0 H1] _] Hp. destruct (Z.eq_dec v 0) as [->|]; [apply Z.testbit_0_l|]. apply Z.bits_above_log2; [exact H0|].
  apply Z.log2_lt_pow2; [lia|]. apply Z.lt_le_trans with (1 := H1). change 16%Z with (2 ^ 4)%Z. apply Z.pow_le_mono_r; lia.
Qed.
Lemma codes_union : forall nd v (c : nat -> Z) A B C D, (forall p, Z.testbit v p = true <-> exists j, (j < nd)%nat /\ Z.testbit (c j) p = true) ->
  (forall j, (j < nd)%nat -> codes (c j) (A j) (B j) (C j) (D j)) ->
  codes v (exists j, (j < nd)%nat /\ A j) (exists j, (j < nd)%nat /\ B j) (exists j, (j < nd)%nat /\ C j) (exists j, (j < nd)%nat /\ D j).
Proof.
  intros nd v c A B C D U H. split.
  - apply small. intros p Hp. destruct (Z.testbit v p) eqn:E; [|reflexivity]. apply U in E as (j & Hj & E). rewrite (high_bits _ _ _ _ _ p (H j Hj) Hp) in E. discriminate E.
  - refine (conj _ (conj _ (conj _ _))); rewrite U; split; intros (j & Hj & K); exists j; (split; [exact Hj|]); apply (H j Hj); exact K.
Qed.
Section Unions.
Variables (d : lin) (o om : derivs) (u : unions) (m : nat) (lv sv : nat -> bool) (first : bool).
Let w := build_unions d (build_set d true o) (build_set d false om) u.
Hypothesis Rev : l_reverse d = true.
Hypothesis EN : l_layers d = S m.
Hypothesis So : l_solar d = true \/ l_thermal d = true.
Hypothesis Hl : forall i, (i <= S m)%nat -> (lv i = true <-> exists j, (j < l_derivs d)%nat /\ acts d first i j).
Hypothesis Hs : forall i, (i <= S m)%nat -> (sv i = true <-> exists j, (j < l_derivs d)%nat /\ acts_source d first i j).
Lemma union_carry : forall i, (i <= S m)%nat -> lv i = true -> sv i = true.
Proof.
  intros i Hi H. apply Hs; [exact Hi|]. apply Hl in H as (j & Hj & A); [|exact Hi]. exists j. split; [exact Hj|].
  destruct So as [So'|So']; [left; split; [exact So'|]; exists i; split; [lia|exact A]|right; split; [exact So'|left; exact A]].
Qed.
Lemma union_down : first = true -> forall i, (i <= S m)%nat ->
  codes (u_down w i) (exists k, (k < i)%nat /\ lv k = true) (exists k, (k < i)%nat /\ sv k = true) (lv i = true) (sv i = true).
Proof.
  intros Ef i Hi. subst first.
  eapply codes_iff; [| | | |apply (codes_union (l_derivs d) _ (v_down (build_set d true o) i)); [|intros j Hj; apply (C20_adding_codes_exact d true o i j); [lia|exact Hj]]].
  - cbv beta. split; [intros (j & Hj & k & Hk & A)|intros (k & Hk & A)].
    + exists k. split; [exact Hk|]. apply Hl; [lia|]. exists j. tauto.
    + apply Hl in A as (j & Hj & A); [|lia]. exists j. split; [exact Hj|]. exists k. tauto.
  - cbv beta. split; [intros (j & Hj & k & Hk & A)|intros (k & Hk & A)].
    + exists k. split; [exact Hk|]. apply Hs; [lia|]. exists j. tauto.
    + apply Hs in A as (j & Hj & A); [|lia]. exists j. split; [exact Hj|]. exists k. tauto.
  - symmetry. apply Hl, Hi.
  - symmetry. apply Hs, Hi.
  - intros p. apply (unions_codes d o om u Rev i p). lia.
Qed.
Lemma union_up : forall i, (i <= S m)%nat ->
  codes ((if first then u_up w else um_up w) i) (lv i = true) (sv i = true) (exists k, (i < k <= S m)%nat /\ lv k = true) (exists k, (i < k <= S m)%nat /\ sv k = true).
Proof.
  intros i Hi.
  eapply codes_iff; [| | | |apply (codes_union (l_derivs d) _ (v_up (build_set d first (if first then o else om)) i)); [|intros j Hj; apply (C20_adding_codes_exact d first _ i j); [lia|exact Hj]]].
  - symmetry. apply Hl, Hi.
  - symmetry. apply Hs, Hi.
  - cbv beta. rewrite EN. split; [intros (j & Hj & k & Hk & A)|intros (k & Hk & A)].
    + exists k. split; [exact Hk|]. apply Hl; [lia|]. exists j. tauto.
    + apply Hl in A as (j & Hj & A); [|lia]. exists j. split; [exact Hj|]. exists k. tauto.
  - cbv beta. rewrite EN. split; [intros (j & Hj & k & Hk & A)|intros (k & Hk & A)].
    + exists k. split; [exact Hk|]. apply Hs; [lia|]. exists j. tauto.
    + apply Hs in A as (j & Hj & A); [|lia]. exists j. split; [exact Hj|]. exists k. tauto.
  - intros p. destruct first; apply (unions_codes d o om u Rev i p); lia.
Qed.
(** A solar source: what varies above varies the sources below. *)
Lemma union_read : l_solar d = true -> (l_thermal d = true -> forall k j, (k < S m)%nat -> (j < l_derivs d)%nat -> ~ emission d k j) ->
  forall i, (i < S m)%nat -> sv i = true -> sv (S i) = true.
Proof.
  intros Sol Em i Hi H. apply Hs in H as (j & Hj & A); [|lia]. apply Hs; [lia|]. exists j. split; [exact Hj|]. left. split; [exact Sol|].
  destruct A as [(_ & q & Hq & A)|(Th & [A|E])].
  - exists q. split; [lia|exact A].
  - exists i. split; [lia|exact A].
  - destruct (Em Th i j Hi Hj E).
Qed.
End Unions.

(** The flags [lv], [sv]: some derivative varies the operators, the sources.  Both ways: always right with a surface,
    and without one with output at the top.  (All Fourier terms use the unions of the first set.) *)
Theorem C44_handle_both_ways : forall n solve tsolve d o om u m nu ul ls Rs t b gp gm t_a b_a lv sv,
  let w := build_unions d (build_set d true o) (build_set d false om) u in
  (0 < n)%nat -> solver n solve -> tsolver n tsolve -> l_reverse d = true -> l_layers d = S m -> l_solar d = true \/ l_thermal d = true ->
  (forall i, (i <= S m)%nat -> (lv i = true <-> exists j, (j < l_derivs d)%nat /\ acts d true i j)) ->
  (forall i, (i <= S m)%nat -> (sv i = true <-> exists j, (j < l_derivs d)%nat /\ acts_source d true i j)) ->
  (forall k c, (k < m)%nat -> stands_for n k ls c -> regular n (Rm (ls (S k))) (Rp c)) ->
  ((forall c, stands_for n m ls c -> regular n (Rp c) Rs) -> ends_only (S m) nu ul ->
   both_ways_gradient n m nu ul ls {| fR := Rs; fS := b |} t lv sv gp gm t_a b_a (both_ways_a n solve tsolve (S m) nu ul ls (u_down w) (Some Rs) t b gp gm t_a b_a)) /\
  (ul 0%nat = 0%nat ->
   top_gradient n m ls t b lv sv (gp 0%nat) (gm 0%nat) t_a b_a (both_ways_a n solve tsolve (S m) 1 ul ls (u_down w) None t b gp gm t_a b_a)).
Proof.
  intros n solve tsolve d o om u m nu ul ls Rs t b gp gm t_a b_a lv sv w Hn Sv Ts Rev EN So Hl Hs Rg.
  assert (forall i, (i <= m)%nat -> lv i = true -> sv i = true) as Ca by (intros i Hi; apply (union_carry d m lv sv true EN So Hl Hs); lia).
  assert (forall i, (0 < i <= m)%nat -> codes (u_down w i) (exists k, (k < i)%nat /\ lv k = true) (exists k, (k < i)%nat /\ sv k = true) (lv i = true) (sv i = true)) as Co.
  { intros i Hi. apply (union_down d o om u m lv sv true Rev EN So Hl Hs eq_refl). lia. }
  split.
  - intros Rs' En. apply C44_both_ways; assumption.
  - intros E. apply C44_both_ways_open_top; assumption.
Qed.
(** Upwards only, a solar source, whatever else, and no derivative that changes the thermal emission of a layer: with
    either set of unions.  Without a surface, for a handle without kernels and no derivative of the emission of the
    surface, whose row the codes still count. *)
Theorem C44_handle_bottom_up : forall n solve tsolve d o om u (first : bool) m ls Rs t b gp gm t_a b_a lv sv,
  let w := build_unions d (build_set d true o) (build_set d false om) u in
  let cs := if first then u_up w else um_up w in
  solver n solve -> tsolver n tsolve -> l_reverse d = true -> l_layers d = S m -> l_solar d = true ->
  (l_thermal d = true -> forall k j, (k < S m)%nat -> (j < l_derivs d)%nat -> ~ emission d k j) ->
  (forall i, (i <= S m)%nat -> (lv i = true <-> exists j, (j < l_derivs d)%nat /\ acts d first i j)) ->
  (forall i, (i <= S m)%nat -> (sv i = true <-> exists j, (j < l_derivs d)%nat /\ acts_source d first i j)) ->
  ((forall k c, (k < S m)%nat -> tops n (S m - S k) ls {| fR := Rs; fS := b |} (S k) c -> regular n (fR c) (Rp (ls k))) ->
   bottom_up_gradient n m ls {| fR := Rs; fS := b |} t lv sv gp gm t_a b_a (bottom_up_a n solve tsolve (S m) ls cs (Some Rs) t b gp gm t_a b_a)) /\
  ((forall j, (j < l_derivs d)%nat -> ~ moves_surface d j) -> (l_thermal d = true -> forall j, (j < l_derivs d)%nat -> ~ DerivsSpec.moves (surface_b_l d j)) ->
   (forall k c, (k < m)%nat -> tops n (m - S k) ls (top_face (ls m)) (S k) c -> regular n (fR c) (Rp (ls k))) ->
   bottom_up_open_gradient n m ls t lv sv gp gm t_a b_a (bottom_up_a n solve tsolve (S m) ls cs None t b gp gm t_a b_a)).
Proof.
  intros n solve tsolve d o om u first m ls Rs t b gp gm t_a b_a lv sv w cs Sv Ts Rev EN Sol Em Hl Hs.
  pose proof (union_carry d m lv sv first EN (or_introl Sol) Hl Hs) as Ca. pose proof (union_read d m sv first EN Hs Sol Em) as Se.
  pose proof (union_up d o om u m lv sv first Rev EN (or_introl Sol) Hl Hs) as Co. fold w in Co. fold cs in Co. split.
  - intros Rg. apply C44_bottom_up; try assumption.
    + intros i Hi H. exists (S i). split; [lia|]. apply Se; assumption.
    + intros i Hi. apply Co. lia.
  - intros Ns Ne Rg.
    assert (lv (S m) = true -> False) as Na.
    { intros H. apply Hl in H as (j & Hj & [[H _]|(_ & _ & H)]); [lia|exact (Ns j Hj H)|lia]. }
    apply C44_bottom_up_open; try assumption.
    + intros i Hi. apply Ca. lia.
    + intros i Hi H. exists (S i). split; [lia|]. apply Se; [lia|assumption].
    + intros i Hi. eapply codes_iff; [reflexivity|reflexivity| | |apply (Co i); lia].
      * split; intros (k & K & L); exists k; (split; [|exact L]); [|lia]. destruct (Nat.eq_dec k (S m)) as [->|]; [destruct (Na L)|lia].
      * split; intros (k & K & L); [|exists k; split; [lia|exact L]]. destruct (Nat.eq_dec k (S m)) as [->|]; [|exists k; split; [lia|exact L]].
        exists m. split; [lia|]. apply Hs in L as (j & Hj & A); [|lia]. apply Hs; [lia|]. exists j. split; [exact Hj|]. left. split; [exact Sol|].
        destruct A as [(_ & q & Hq & A)|(Th & [A|[[E _]|[_ E]]])].
        -- exists q. split; [|exact A]. destruct (Nat.eq_dec q (S m)) as [->|]; [|lia]. exfalso. apply Na, Hl; [lia|]. exists j. tauto.
        -- exfalso. apply Na, Hl; [lia|]. exists j. tauto.
        -- lia.
        -- destruct (Ne Th j Hj E).
Qed.

(* ------------------------------------------------------------------------- *)
(** * Concrete cases: one stream *)
Lemma tsolver1 : tsolver 1 solve1.
Proof.
  intros mm x Ns i j Hi Hj. assert (i = 0%nat) as -> by lia. assert (j = 0%nat) as -> by lia. exact (solver1 mm x Ns 0%nat 0%nat Hi Hj).
Qed.
(** A beam, two layers, the thickness of the lower one varies, reverse mode. *)
Definition lin_back : lin := {|
  l_layers := 2; l_derivs := 1; l_elem := 1; l_solar := true; l_thermal := false; l_reverse := true;
  l_ncoef := fun _ => 3%nat; l_kernels := [0%Z];
  ltau_l := fun i _ => if Nat.eqb i 1 then half else d_zero; omega_l := fun _ _ => d_zero; coef_l := fun _ _ _ _ => d_zero; amp_l := fun _ _ => d_zero; par_l := fun _ _ _ => d_zero;
  levels_b_l := fun _ _ => d_zero; surface_b_l := fun _ => d_zero |}.
Definition back_l (i : nat) : bool := Nat.eqb i 1.
Definition back_s (i : nat) : bool := Nat.leb 1 i.
Lemma back_flags : (forall i, (i <= 2)%nat -> (back_l i = true <-> exists j, (j < l_derivs lin_back)%nat /\ acts lin_back true i j)) /\
  (forall i, (i <= 2)%nat -> (back_s i = true <-> exists j, (j < l_derivs lin_back)%nat /\ acts_source lin_back true i j)).
Proof.
  assert (forall i, (i <= 2)%nat -> (tr (v_layers (build_set lin_back true garbage_set) i 0%nat) = true <-> acts lin_back true i 0%nat)) as L.
  { intros i Hi. apply (lv_acts lin_back true garbage_set i 0%nat); [exact Hi|cbn; lia]. }
  assert (forall i, (i <= 2)%nat -> (tr (v_sources (build_set lin_back true garbage_set) i 0%nat) = true <-> acts_source lin_back true i 0%nat)) as K.
  { intros i Hi. apply (sv_acts lin_back true garbage_set i 0%nat); [exact Hi|cbn; lia]. }
  split; intros i Hi; [specialize (L i Hi); clear K|specialize (K i Hi); clear L].
  - assert (back_l i = tr (v_layers (build_set lin_back true garbage_set) i 0%nat)) as -> by (destruct i as [|[|[|i]]]; [reflexivity..|lia]).
    rewrite L. split; [intros H; exists 0%nat; split; [cbn; lia|exact H]|]. intros (j & Hj & H). cbn in Hj. assert (j = 0%nat) as -> by lia. exact H.
  - assert (back_s i = tr (v_sources (build_set lin_back true garbage_set) i 0%nat)) as -> by (destruct i as [|[|[|i]]]; [reflexivity..|lia]).
    rewrite K. split; [intros H; exists 0%nat; split; [cbn; lia|exact H]|]. intros (j & Hj & H). cbn in Hj. assert (j = 0%nat) as -> by lia. exact H.
Qed.
(** The two layers of C31 above a surface of albedo 1/4: C44_handle_both_ways gives a derivative of the radiances at the
    top and at the bottom. *)
Example ex_back : let w := build_unions lin_back (build_set lin_back true garbage_set) (build_set lin_back false garbage_set) no_unions in
  (u_down w 1%nat = ADDING_U_B /\ u_up w 0%nat = ADDING_U_B /\ u_up w 1%nat = ADDING_B_S) /\
  both_ways_gradient 1 1 2 (fun i => (2 * i)%nat) (two (1/2)) {| fR := sc (1/4); fS := vc 1 |} (vc 1) back_l back_s (fun _ => vc 1) (fun _ => vc 2) zvec zvec
    (both_ways_a 1 solve1 solve1 2 2 (fun i => (2 * i)%nat) (two (1/2)) (u_down w) (Some (sc (1/4))) (vc 1) (vc 1) (fun _ => vc 1) (fun _ => vc 2) zvec zvec) /\
  (forall i, (i <= 1)%nat -> lderiv 1 (fun t => two t i) (1/2) (flagged (back_l i) (back_s i) (two_l i 0%nat))).
Proof.
  intros w. split; [split; [reflexivity|split; reflexivity]|]. destruct back_flags as [Hl Hs]. destruct ex_both as (_ & _ & Rs & _ & En & _). destruct ex_two as (Rg & _ & D).
  split.
  - apply (C44_handle_both_ways 1 solve1 solve1 lin_back garbage_set garbage_set no_unions 1 2 (fun i => (2 * i)%nat) (two (1/2)) (sc (1/4)) (vc 1) (vc 1) (fun _ => vc 1) (fun _ => vc 2) zvec zvec back_l back_s);
      [lia|exact solver1|exact tsolver1|reflexivity|reflexivity|left; reflexivity|exact Hl|exact Hs| |exact Rs|exact En].
    apply Rg.
  - intros i Hi. specialize (D i Hi). destruct i as [|[|i]]; [exact D|exact D|lia].
Qed.

(* ------------------------------------------------------------------------- *)
(** * Where it fails *)

(** Thermal emission only: that of the layer varies above a surface that does not.  The union is S_U, for which
    layer_add_ref_a drops the adjoint. *)
Definition lin_glow : lin := {|
  l_layers := 1; l_derivs := 1; l_elem := 1; l_solar := false; l_thermal := true; l_reverse := true;
  l_ncoef := fun _ => 3%nat; l_kernels := [0%Z];
  ltau_l := fun _ _ => d_zero; omega_l := fun _ _ => d_zero; coef_l := fun _ _ _ _ => d_zero; amp_l := fun _ _ => d_zero; par_l := fun _ _ _ => d_zero;
  levels_b_l := fun i _ => if Nat.eqb i 0 then half else d_zero; surface_b_l := fun _ => d_zero |}.
Theorem C44_emission_above_refuted :
  let v := build_set lin_glow true garbage_set in let w := build_unions lin_glow v (build_set lin_glow false garbage_set) no_unions in
  let lv i := tr (v_layers v i 0%nat) in let sv i := tr (v_sources v i 0%nat) in let ls (_ : nat) := plain 0 (1/2) 0 0 in
  u_up w 0%nat = ADDING_S_U /\ sv 0%nat = true /\ sv 1%nat = false /\
  ~ bottom_up_gradient 1 0 ls {| fR := sc 0; fS := vc 0 |} zvec lv sv (vc 1) zvec zvec zvec
      (bottom_up_a 1 solve1 solve1 1 ls (u_up w) (Some (sc 0)) zvec (vc 0) (vc 1) zvec zvec zvec).
Proof.
  intros v w lv sv ls.
  assert (lv 0%nat = false) as L0 by reflexivity. assert (lv 1%nat = false) as L1 by reflexivity.
  assert (sv 0%nat = true) as S0 by reflexivity. assert (sv 1%nat = false) as S1 by reflexivity.
  assert (u_up w 0%nat = ADDING_S_U) as C0 by reflexivity.
  clearbody lv sv. generalize dependent (u_up w). clear w v. intros cs C0.
  refine (conj C0 (conj S0 (conj S1 _))). intros H.
  specialize (H (fun s _ => plain 0 (1/2) 0 s) (fun _ => {| fR := sc 0; fS := vc 0 |}) (fun _ => zvec) (fun s => vc s) (fun _ => plain 0 0 0 1) no_face zvec 0
    (fun _ => eq_refl) eq_refl eq_refl).
  assert (bottom_up_a 1 solve1 solve1 1 ls cs (Some (sc 0)) zvec (vc 0) (vc 1) zvec zvec zvec =
          (let r := bottom_up_a 1 solve1 solve1 1 ls (fun _ => ADDING_S_U) (Some (sc 0)) zvec (vc 0) (vc 1) zvec zvec zvec in r)) as E.
  { unfold bottom_up_a. cbn [toa_a]. unfold toa_a. cbn [loop]. unfold toa_a_step. cbn [Nat.sub Nat.eqb]. rewrite C0. reflexivity. }
  rewrite E in H. clear E.
  assert (derivable_pt_lim (fun s => vweigh 1 (vc 1) (vc s) + vweigh 1 zvec zvec) 0 0) as K.
  { eapply dl_eq; [apply H|].
    - intros i Hi. rewrite (ltac:(lia) : i = 0%nat), L0, S0. cbn. refine (conj _ (conj _ (conj _ (conj _ (conj _ _))))); intros a; intros; unfold sc, vc, zmat; first [exact (derivable_pt_lim_id _)|exact (derivable_pt_lim_const _ _)].
    - rewrite L1, S1. split; intros i; intros; exact (derivable_pt_lim_const _ _).
    - intros i _. exact (derivable_pt_lim_const _ _).
    - exists 1. split; [lra|]. intros s _. exists (vc 0), (vc 0). split.
      + intros i Hi. unfold dot, total, plain, sc, vc, zvec. cbn. unfold vc, sc. split; lra.
      + intros i Hi. unfold dot, total, sc, vc. cbn. unfold vc, sc. lra.
    - rewrite L1, S1. cbn. rewrite L0, S0. cbn. unfold fweigh, lweigh, mweigh, vweigh, total. cbn. unfold zmat, zvec, vadd, madd, mv, total, transp, sc, vc. cbn. unfold vadd, zvec, sc, vc, zmat. cbn. lra. }
  assert (derivable_pt_lim (fun s => vweigh 1 (vc 1) (vc s) + vweigh 1 zvec zvec) 0 1) as K2.
  { eapply derivable_pt_lim_ext; [|apply (linear_deriv 1)]. intros s. unfold vweigh, total, vc, zvec. cbn. unfold zvec, vc. lra. }
  pose proof (uniqueness_limite _ _ _ _ K K2). lra.
Qed.

(** Without a surface, output at the bottom: the radiances that fall on the top and that come from below, and their
    adjoints, are exchanged, and the weight of the upward radiance at the bottom, which is what comes from below, is lost. *)
Definition bottom_gradient n m ls t b (lv sv : nat -> bool) gp gm t_a b_a (res : (nat -> layer) * face * vec) : Prop :=
  forall (F : R -> nat -> layer) (T B D : R -> vec) d b' t' p, (forall i, F p i = ls i) -> B p = b -> T p = t ->
    (forall i, (i <= m)%nat -> lderiv n (fun s => F s i) p (flagged (lv i) (sv i) (d i))) -> vderiv n B p b' -> vderiv n T p t' ->
    around p (fun s => exists u0, through n m (F s) (T s) (B s) u0 (D s)) ->
    derivable_pt_lim (fun s => vweigh n gp (B s) + vweigh n gm (D s)) p
      (total (S m) (fun i => lweigh n (fst (fst res) i) (flagged (lv i) (sv i) (d i))) + (vweigh n (fS (snd (fst res))) b' - vweigh n b_a b') +
       (vweigh n (snd res) t' - vweigh n t_a t')).
Theorem C44_bottom_without_surface_refuted : forall cs, let ls (_ : nat) := plain 0 (1/2) 0 0 in
  let res := both_ways_a 1 solve1 solve1 1 1 (fun _ => 1%nat) ls cs None (vc 0) (vc 0) (fun _ => zvec) (fun _ => vc 1) zvec zvec in
  vweigh 1 (snd res) (vc 1) = 0 /\ fS (snd (fst res)) 0%nat = 1/2 /\
  ~ bottom_gradient 1 0 ls (vc 0) (vc 0) (fun _ => false) (fun _ => false) zvec (vc 1) zvec zvec res.
Proof.
  intros cs ls res.
  assert (forall x, vweigh 1 (snd res) x = 0) as V. { intros x. unfold res. cbn. unfold vweigh, total. cbn. unfold mv, vadd, total, transp, zvec, sc, vc. cbn. unfold mv, vadd, total, transp, zvec, sc, vc, sum_of. cbn. unfold sc. ring. }
  refine (conj (V _) (conj _ _)).
  { unfold res. cbn. unfold mv, vadd, total, transp, zvec, sc, vc. cbn. unfold mv, vadd, total, transp, zvec, sc, vc, sum_of. cbn. unfold sc. field. }
  intros H.
  specialize (H (fun _ => ls) (fun s => vc s) (fun _ => vc 0) (fun s => vc (1/2 * s)) (fun _ => no_layer) (vc 0) (vc 1) 0 (fun _ => eq_refl) eq_refl eq_refl).
  assert (derivable_pt_lim (fun s => vweigh 1 zvec (vc 0) + vweigh 1 (vc 1) (vc (1/2 * s))) 0 0) as K.
  { eapply dl_eq; [apply H|].
    - intros i Hi. refine (conj _ (conj _ (conj _ (conj _ (conj _ _))))); intros a; intros; exact (derivable_pt_lim_const _ _).
    - intros i _. exact (derivable_pt_lim_const _ _).
    - intros i _. exact (derivable_pt_lim_id _).
    - exists 1. split; [lra|]. intros s _. exists (vc 0). intros i Hi. unfold dot, total, plain, sc, vc, zvec. cbn. unfold vc, sc. split; lra.
    - rewrite V. cbn [flagged]. unfold lweigh, total at 1. cbn [Rm Tm Sm Rp Tp Sp]. rewrite !mw_zero_r, !vw_zero_r. unfold vweigh, total, vc. cbn. unfold zvec. lra. }
  assert (derivable_pt_lim (fun s => vweigh 1 zvec (vc 0) + vweigh 1 (vc 1) (vc (1/2 * s))) 0 (1/2)) as K2.
  { eapply derivable_pt_lim_ext; [|apply (linear_deriv (1/2))]. intros s. unfold vweigh, total, vc, zvec. cbn. unfold zvec, vc. lra. }
  pose proof (uniqueness_limite _ _ _ _ K K2). lra.
Qed.

Print Assumptions C44_pair.
Print Assumptions C44_face.
Print Assumptions C44_all_layers.
Print Assumptions C44_above_surface.
Print Assumptions C44_from_above.
Print Assumptions C44_bottom_up.
Print Assumptions C44_bottom_up_open.
Print Assumptions C44_both_ways.
Print Assumptions C44_both_ways_open_top.
Print Assumptions C44_handle_both_ways.
Print Assumptions C44_handle_bottom_up.
Print Assumptions C44_emission_above_refuted.
Print Assumptions C44_bottom_without_surface_refuted.
