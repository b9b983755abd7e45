(** C49: the derivatives of the boundary value solver are the derivatives of the light. *)
From Coq Require Import Reals Bool Arith ZArith List Lia Lra.
From Verif Require Import Base Dbl DerivsModel DerivsSpec DerivsProofs DerivsProperties DeltaMSpec DeltaMProofs BeamProofs AddingModel AddingSpec AddingMat AddingDeriv AddingCalls RadianceModel RadianceSpec RadianceProperties SingleProofs
  EigModel EigSpec EigMat EigCore EigProofs EigEnergy EigLayer EigProperties EigDModel EigDSpec EigDProofs EigDProperties AtmSpec AtmProofs AtmLight AtmProperties
  BvpModel BvpSpec BvpProofs BvpLight GaussProofs BvpProperties BvpDModel BvpDProofs BvpDPath BvpDSolve.
Open Scope R_scope.

(** A surface that varies, or none *)
Definition surface_at (sf : option (R -> mat)) (s : R) : option mat := option_map (fun r => r s) sf.
Definition surface_moves (n : nat) (sf : option (R -> mat)) (p : R) (flag : bool) (Rs_l : mat) : Prop :=
  match sf with None => True | Some r => mderiv n r p (if flag then Rs_l else zmat) end.
(** The flags announce whatever varies: the layer itself, the beam in it, its emission; the eigenvalues of a layer that varies are simple (C46). *)
Definition announced (n m : nat) (solar thermal : bool) (dl db dt : nat -> bool) (XS : R -> nat -> slab) (p : R) (dxs : nat -> slab) : Prop :=
  forall k, (k <= m)%nat -> let x := XS p k in
    varies n (dl k) (solar && db k) (thermal && dt k) (fun s => XS s k) p (dxs k) /\
    (dl k = true -> simple_spectrum n (qx x) (qw x) ((1 + (if zeroth x then 1 else 0)) / 4 * omega x) (P_pp x) (P_mp x) /\
                    coupled n (qx x) (qw x) ((1 + (if zeroth x then 1 else 0)) / 4 * omega x) (P_pp x) (P_mp x)) /\
    (dl k = true -> solar = true -> db k = true) /\ (dl k = true -> thermal = true -> dt k = true).

Lemma finite_choice : forall (A : Type) (a0 : A) m (P : nat -> A -> Prop), (forall k, (k <= m)%nat -> exists a, P k a) -> exists f, forall k, (k <= m)%nat -> P k (f k).
Proof.
  intros A a0 m P. induction m as [|m IH]; intros H.
  - destruct (H 0%nat (le_n 0)) as (a & Ha). exists (fun _ => a). intros k Hk. assert (k = 0%nat) as -> by lia. exact Ha.
  - destruct IH as (f & Hf); [intros k Hk; apply H; lia|]. destruct (H (S m) (le_n _)) as (a & Ha). exists (fun k => if Nat.eqb k (S m) then a else f k).
    intros k Hk. destruct (Nat.eqb_spec k (S m)) as [->|NE]; [exact Ha|apply Hf; lia].
Qed.

Section Moving.
Variables (n m : nat) (solve : nat -> mat -> mat -> mat) (eig : mat -> vec * mat) (gb : nat -> nat -> nat -> mat -> option (vec -> vec)).
Variables (solar thermal : bool) (dl db dt : nat -> bool).
Variables (XS : R -> nat -> slab) (sf : option (R -> mat)) (T Bt : R -> vec) (p : R) (dxs : nat -> slab) (Rs_l : mat) (top_l bot_l old : vec).
Hypothesis Pos : (0 < n)%nat.
Hypothesis Ro : routines n m thermal solve eig gb.
Hypothesis SolveS : solver (S n) (solve (S n)).
Hypothesis Norm : normalised n eig.
Hypothesis So : around p (fun s => sound n m solar thermal (XS s) (surface_at sf s)).
Hypothesis An : announced n m solar thermal dl db dt XS p dxs.
Hypothesis DS : surface_moves n sf p (dl (S m)) Rs_l.
Hypothesis DT : vderiv n T p top_l.
Hypothesis DB : vderiv n Bt p bot_l.
Hypothesis Dark : sf = None -> forall i, (i < n)%nat -> bot_l i = 0.
Notation ws := (fun k => waves_of n solve eig (XS p k)).
Notation wl := (fun k => waves_l_of n solve eig (dl k) (XS p k) (dxs k)).
Notation dw := (fun k => masked (dl k) (db k) (dt k) (wl k)).
Notation surf := (surface_at sf p).
Notation K := (2 * S m)%nat.
Notation Rl := (surf_l m surf Rs_l dl).
Notation bl := (emit_l surf bot_l).
Lemma d_reflector : mderiv n (fun s => reflector (surface_at sf s)) p Rl.
Proof using DS.
  unfold surface_moves, surf_l, surface_at in *. case_eq sf; [intros r E|intros E]; rewrite E in DS; cbn [option_map reflector].
  - eapply mderiv_ext; [|exact DS]. intros i j _ _. case (dl (S m)); reflexivity.
  - intros i j _ _. apply dl_const.
Qed.
Lemma d_bottom : vderiv n Bt p bl.
Proof using DB Dark.
  unfold emit_l, surface_at. case_eq sf; [intros r E|intros E]; cbn [option_map]; [exact DB|]. eapply vderiv_ext; [|exact DB]. intros i Hi. apply Dark; assumption.
Qed.
Lemma rl_is : forall B q i, (q < K)%nat -> (i < n)%nat -> rhs_l n m ws wl surf Rs_l dl db dt solar thermal top_l bot_l B old (q * n + i)%nat =
  right_d n m solar thermal ws dw surf Rl top_l bl q i - rows_d n m ws dw surf Rl B q i.
Proof using Pos.
  intros B q i Hq Hi. unfold right_d, rows_d. destruct (row_cases n Pos m q Hq) as [ -> |[(k & Hk & [ -> | -> ])| -> ]].
  - rewrite Nat.eqb_refl, rl_first by assumption. reflexivity.
  - destruct (odd_row n Pos k) as (-> & -> & ->). rewrite (eqb_no n Pos (2 * k + 1) (2 * m + 1)) by lia. rewrite rl_up by assumption. reflexivity.
  - destruct (even_row n Pos k) as (-> & -> & ->). rewrite (eqb_no n Pos (2 * k + 2) (2 * m + 1)) by lia. rewrite rl_dn by assumption. reflexivity.
  - rewrite (proj1 (odd_row n Pos m)), Nat.eqb_refl. rewrite rl_last by assumption. reflexivity.
Qed.
Lemma moving : exists (EE : R -> nat -> mat -> vec * mat) (Bs : R -> vec) (Bl : vec), let W := fun s k => waves_of n solve (EE s k) (XS s k) in
  solve_bvp_l n gb m ws wl surf Rs_l dl db dt solar thermal top_l bot_l (T p) (Bt p) old = Ok (Bs p, Bl) /\
  W p = ws /\ (forall k, (k <= m)%nat -> wderiv n solar thermal (fun s => W s k) p (dw k)) /\ grows n m p Bs Bl /\
  around p (fun s => layers_ok n m bright solar thermal (XS s) /\
    atmosphere n m solar thermal (XS s) (reflector (surface_at sf s)) (T s) (Bt s) (light_p n solve (EE s) solar thermal (XS s) (Bs s)) (light_m n solve (EE s) solar thermal (XS s) (Bs s)) /\
    (forall Ip Im, atmosphere n m solar thermal (XS s) (reflector (surface_at sf s)) (T s) (Bt s) Ip Im ->
       same_light n m (XS s) Ip Im (light_p n solve (EE s) solar thermal (XS s) (Bs s)) (light_m n solve (EE s) solar thermal (XS s) (Bs s)))).
Proof using Pos Ro SolveS Norm So An DS DT DB Dark.
  destruct Ro as (S1 & S2 & ES & Bd). pose proof (here _ _ So) as (Ok & Su).
  destruct (finite_choice (R -> mat -> vec * mat) (fun _ => eig) m (fun k E => waves_of n solve (E p) (XS p k) = waves_of n solve eig (XS p k) /\
    around p (fun s => eigensystem n (gam n (XS s k)) (E s (gam n (XS s k)))) /\ wderiv n solar thermal (fun s => waves_of n solve (E s) (XS s k)) p (dw k))) as (e & He).
  { intros k Hk. destruct (An k Hk) as (Va & Sm & Fb & Ft). destruct (Ok k Hk) as ((Sc & LP & _ & Sep & Sl & Th) & _). rewrite <- factor_is in Sm.
    apply (layer_moves n solve eig Pos S1 ES Norm solar thermal (fun s => XS s k) p (dxs k) (dl k) (db k) (dt k) Va).
    - refine (around_imp p _ _ _ So). intros s (Ok' & _). destruct (Ok' k Hk) as ((A & B & _) & _). split; assumption.
    - exact (Sep eq_refl).
    - intros D. exact (conj SolveS (Sm D)).
    - intros Q. destruct (Sl Q) as (A & B & _). refine (conj A (conj B _)). intros D. exact (Fb D Q).
    - intros Q. refine (conj (S2 Q) (conj (Th Q) _)). intros D. exact (Ft D Q). }
  set (EE := fun s => if Req_EM_T s p then (fun _ : nat => eig) else fun k => e k s).
  assert (EE p = fun _ => eig) as Ep by (unfold EE; destruct (Req_EM_T p p); [reflexivity|contradiction]).
  assert (forall k s, (k <= m)%nat -> waves_of n solve (e k s) (XS s k) = waves_of n solve (EE s k) (XS s k)) as WE.
  { intros k s Hk. unfold EE. destruct (Req_EM_T s p) as [->|_]; [|reflexivity]. exact (proj1 (He k Hk)). }
  set (W := fun s k => waves_of n solve (EE s k) (XS s k)).
  assert (W p = ws) as Wp by (unfold W; rewrite Ep; reflexivity).
  assert (forall k, (k <= m)%nat -> wderiv n solar thermal (fun s => W s k) p (dw k)) as DW.
  { intros k Hk. apply (wderiv_same n solar thermal (fun s => waves_of n solve (e k s) (XS s k))); [intros s; apply WE, Hk|]. exact (proj2 (proj2 (He k Hk))). }
  assert (around p (fun s => forall k, (k <= m)%nat -> eigensystem n (gam n (XS s k)) (EE s k (gam n (XS s k))))) as Es.
  { refine (around_imp p _ _ _ (around_and p _ _ So (around_all p m _ (fun k Hk => proj1 (proj2 (He k Hk)))))). intros s ((Ok' & _) & H) k Hk. unfold EE. destruct (Req_EM_T s p) as [_|_]; [|exact (H k Hk)].
    destruct (Ok' k Hk) as ((Sc & _ & _ & Sep & _) & _). exact (eig_ok n eig (XS s k) ES Sc (Sep eq_refl)). }
  assert (around p (fun s => forall B, (forall q i, (q < K)%nat -> (i < n)%nat -> rows n m (W s) (surface_at sf s) B q i = 0) -> forall q i, (q < K)%nat -> (i < n)%nat -> B (q * n + i)%nat = 0)) as Inj.
  { refine (around_imp p _ _ _ (around_and p _ _ So Es)). intros s ((Ok' & Su') & Es'). apply (rows_injective n solve eig Pos S1 ES (EE s) solar thermal m (XS s) Ok' Es' (surface_at sf s) Su'). }
  (* the system at p *)
  assert (forall k, (k <= m)%nat -> eigensystem n (gam n (XS p k)) (eig (gam n (XS p k)))) as Es0.
  { intros k Hk. destruct (Ok k Hk) as ((Sc & _ & _ & Sep & _) & _). exact (eig_ok n eig (XS p k) ES Sc (Sep eq_refl)). }
  destruct (assembled n Pos m ws surf) as (a & Ea & Ha).
  pose proof (matrix_nonsingular n solve eig Pos S1 ES (fun _ => eig) solar thermal m (XS p) Ok Es0 surf Su a Ha) as NS. destruct (Bd a NS) as (f & Ef & Hf).
  set (B0 := f (rhs n m ws surf solar thermal (T p) (Bt p))). set (Bl := f (rhs_l n m ws wl surf Rs_l dl db dt solar thermal top_l bot_l B0 old)).
  assert (forall q i, (q < K)%nat -> (i < n)%nat -> (q * n + i < n_comp n m)%nat) as In by (intros; rewrite n_comp_is by exact Pos; apply inside_K; assumption).
  assert (forall q i, (q < K)%nat -> (i < n)%nat -> rows n m ws surf B0 q i = right n m ws surf solar thermal (T p) (Bt p) q i) as H0.
  { intros q i Hq Hi. rewrite <- Ha by assumption. unfold mv, right. apply Hf. apply In; assumption. }
  destruct (solutions n Pos m solar thermal W p ws dw Wp DW (surface_at sf) surf Rl eq_refl d_reflector T Bt top_l bl DT d_bottom Inj B0 H0) as (Bs & B' & Bp & G & Sol).
  assert (forall j, (j < K * n)%nat -> B' j = Bl j) as EB.
  { apply (solutions_d n Pos m solar thermal W p ws dw Wp DW (surface_at sf) surf Rl eq_refl d_reflector T Bt top_l bl DT d_bottom Inj Bs B' G Sol).
    intros q i Hq Hi. rewrite Bp, <- rl_is by assumption. rewrite <- Ha by assumption. unfold mv. apply Hf. apply In; assumption. }
  exists EE, Bs, Bl. cbv zeta. fold W. refine (conj _ (conj Wp (conj DW (conj _ _)))).
  - unfold solve_bvp_l. rewrite Ea. cbn [bind]. rewrite Ef. cbv zeta. fold B0. rewrite Bp. reflexivity.
  - intros j Hj. rewrite <- EB by exact Hj. apply G, Hj.
  - refine (around_imp p _ _ _ (around_and p _ _ So (around_and p _ _ Es Sol))). intros s ((Ok' & Su') & Es' & Sol'). pose proof (rows_atmosphere n solve (EE s) Pos S1 solar thermal S2 m (XS s) Ok' Es' (surface_at sf s) _ _ _ Sol') as A. refine (conj Ok' (conj A _)). intros Ip Im At.
    apply (bv_same n solve eig Pos S1 ES solar thermal S2 m (XS s) Ok' (reflector (surface_at sf s)) (T s) (Bt s)); [exact Su'|exact At|exact A].
Qed.
Lemma lit_near : exists Ip Im : R -> nat -> beam, around p (fun s => atmosphere n m solar thermal (XS s) (reflector (surface_at sf s)) (T s) (Bt s) (Ip s) (Im s)).
Proof using Pos Ro SolveS Norm So An DS DT DB Dark old.
  destruct moving as (EE & Bs & Bl & _ & _ & _ & _ & Ar). exists (fun s => light_p n solve (EE s) solar thermal (XS s) (Bs s)), (fun s => light_m n solve (EE s) solar thermal (XS s) (Bs s)).
  refine (around_imp p _ _ _ Ar). intros s (_ & A & _). exact A.
Qed.

(** What is computed at a level *)
Lemma level_l_is : forall B Bl ul, (ul <= S m)%nat -> exists u d, level_l n m ws wl dl db dt solar thermal B Bl ul = Ok (u, d) /\ forall i, (i < n)%nat ->
  ((ul <= m)%nat -> u i = Up0' n ws dw B ul i + Up0 n ws Bl ul i + P0p' dw solar thermal ul i /\ d i = Dn0' n ws dw B ul i + Dn0 n ws Bl ul i + P0m' dw solar thermal ul i) /\
  (ul = S m -> u i = UpL' n ws dw B m i + UpL n ws Bl m i + P1p' ws dw solar thermal m i /\ d i = DnL' n ws dw B m i + DnL n ws Bl m i + P1m' ws dw solar thermal m i).
Proof using Pos.
  intros B Bl ul Hu. unfold level_l. replace (S m <? ul)%nat with false by (symmetry; apply Nat.ltb_ge; exact Hu).
  destruct (Nat.eqb_spec ul (S m)) as [->|NE]; cbn [negb].
  - eexists. eexists. split; [reflexivity|]. intros i Hi. split; [lia|]. intros _. split; rewrite Rplus_assoc; f_equal.
    + unfold UpL', UpL. collect. apply total_ext. intros j Hj. unfold part. destruct (IX n Pos m j) as (-> & -> & _). unfold lam_l. cbn [masked b_Xp b_Xm b_nu b_ltau]. case (dl m); unfold when; ring.
    + unfold P1p'. rewrite !(when_and n Pos). cbn [masked b_Fp b_1p b_atran]. case solar; case thermal; case (db m); case (dt m); unfold when; ring.
    + unfold DnL', DnL. collect. apply total_ext. intros j Hj. unfold part. destruct (IX n Pos m j) as (-> & -> & _). unfold lam_l. cbn [masked b_Xp b_Xm b_nu b_ltau]. case (dl m); unfold when; ring.
    + unfold P1m'. rewrite !(when_and n Pos). cbn [masked b_Fm b_1m b_atran]. case solar; case thermal; case (db m); case (dt m); unfold when; ring.
  - eexists. eexists. split; [reflexivity|]. intros i Hi. split; [|lia]. intros _. split; rewrite Rplus_assoc; f_equal.
    + unfold Up0', Up0. collect. apply total_ext. intros j Hj. unfold part. destruct (IX n Pos ul j) as (-> & -> & _). unfold lam_l. cbn [masked b_Xp b_Xm b_nu b_ltau]. case (dl ul); unfold when; ring.
    + unfold P0p'. rewrite !(when_and n Pos). cbn [masked b_Fp b_0p b_atran]. case solar; case thermal; case (db ul); case (dt ul); unfold when; ring.
    + unfold Dn0', Dn0. collect. apply total_ext. intros j Hj. unfold part. destruct (IX n Pos ul j) as (-> & -> & _). unfold lam_l. cbn [masked b_Xp b_Xm b_nu b_ltau]. case (dl ul); unfold when; ring.
    + unfold P0m'. rewrite !(when_and n Pos). cbn [masked b_Fm b_0m b_atran]. case solar; case thermal; case (db ul); case (dt ul); unfold when; ring.
Qed.
Definition level_moves (Ip Im : R -> nat -> beam) (ul : nat) (u d : vec) : Prop := forall i, (i < n)%nat ->
  ((ul <= m)%nat -> derivable_pt_lim (fun s => Ip s ul i 0) p (u i) /\ derivable_pt_lim (fun s => Im s ul i 0) p (d i)) /\
  (forall k, ul = S k -> derivable_pt_lim (fun s => Ip s k i (ltau (XS s k))) p (u i) /\ derivable_pt_lim (fun s => Im s k i (ltau (XS s k))) p (d i)).
Lemma levels_move : forall ul, (ul <= S m)%nat -> exists u d,
  bvp_level_l n solve eig gb m (XS p) dxs surf Rs_l dl db dt solar thermal (T p) (Bt p) top_l bot_l old ul = Ok (u, d) /\
  forall Ip Im : R -> nat -> beam, around p (fun s => atmosphere n m solar thermal (XS s) (reflector (surface_at sf s)) (T s) (Bt s) (Ip s) (Im s)) -> level_moves Ip Im ul u d.
Proof using Pos Ro SolveS Norm So An DS DT DB Dark.
  intros ul Hu. destruct moving as (EE & Bs & Bl & EB & Wp & DW & G & Ar). cbv zeta in Wp, DW.
  destruct (level_l_is (Bs p) Bl ul Hu) as (u & d & EL & Hl). exists u, d. split.
  { unfold bvp_level_l. cbv zeta. rewrite EB. cbn [bind fst snd]. exact EL. }
  intros Ip Im At i Hi. destruct (Hl i Hi) as (H1 & H2).
  set (W := fun s k => waves_of n solve (EE s k) (XS s k)) in *.
  assert (forall k : nat, (k <= m)%nat -> around p (fun s => light_p n solve (EE s) solar thermal (XS s) (Bs s) k i 0 = Ip s k i 0 /\ light_m n solve (EE s) solar thermal (XS s) (Bs s) k i 0 = Im s k i 0 /\
     light_p n solve (EE s) solar thermal (XS s) (Bs s) k i (ltau (XS s k)) = Ip s k i (ltau (XS s k)) /\ light_m n solve (EE s) solar thermal (XS s) (Bs s) k i (ltau (XS s k)) = Im s k i (ltau (XS s k)))) as Eq.
  { intros k Hk. refine (around_imp p _ _ _ (around_and p _ _ Ar At)). intros s ((Ok' & _ & Sm) & A). specialize (Sm _ _ A). destruct (Ok' k Hk) as ((_ & LP & _) & _).
    destruct (Sm k i 0 Hk Hi ltac:(lra)) as (-> & ->). destruct (Sm k i (ltau (XS s k)) Hk Hi ltac:(lra)) as (-> & ->). refine (conj eq_refl (conj eq_refl (conj eq_refl eq_refl))). }
  assert ((ul <= m)%nat -> derivable_pt_lim (fun s => Ip s ul i 0) p (u i) /\ derivable_pt_lim (fun s => Im s ul i 0) p (d i)) as Top.
  { intros Hm. destruct (H1 Hm) as (-> & ->). split.
    - apply (eq_around (fun s => Up0 n (W s) (Bs s) ul i + P0p (W s) solar thermal ul i)); [refine (around_imp p _ _ _ (Eq ul Hm)); intros s (<- & _); symmetry; apply end_p0|].
      apply dl_plus; [exact (d_Up0 n Pos m solar thermal W p ws dw Wp DW Bs Bl ul G Hm i Hi)|exact (d_P0p n m solar thermal W p dw DW ul Hm i Hi)].
    - apply (eq_around (fun s => Dn0 n (W s) (Bs s) ul i + P0m (W s) solar thermal ul i)); [refine (around_imp p _ _ _ (Eq ul Hm)); intros s (_ & <- & _); symmetry; apply end_m0|].
      apply dl_plus; [exact (d_Dn0 n Pos m solar thermal W p ws dw Wp DW Bs Bl ul G Hm i Hi)|exact (d_P0m n m solar thermal W p dw DW ul Hm i Hi)]. }
  split; [exact Top|]. intros k ->. destruct (Nat.eq_dec k m) as [->|NE].
  - destruct (H2 eq_refl) as (-> & ->). split.
    + apply (eq_around (fun s => UpL n (W s) (Bs s) m i + P1p (W s) solar thermal m i)); [refine (around_imp p _ _ _ (around_and p _ _ Ar (Eq m (le_n m)))); intros s ((Ok' & _) & _ & _ & <- & _); symmetry; apply (end_pL n solve (EE s) solar thermal m (XS s) Ok'); apply le_n|].
      apply dl_plus; [exact (d_UpL n Pos m solar thermal W p ws dw Wp DW Bs Bl m G (le_n m) i Hi)|exact (d_P1p n m solar thermal W p ws dw Wp DW m (le_n m) i Hi)].
    + apply (eq_around (fun s => DnL n (W s) (Bs s) m i + P1m (W s) solar thermal m i)); [refine (around_imp p _ _ _ (around_and p _ _ Ar (Eq m (le_n m)))); intros s ((Ok' & _) & _ & _ & _ & <-); symmetry; apply (end_mL n solve (EE s) solar thermal m (XS s) Ok'); apply le_n|].
      apply dl_plus; [exact (d_DnL n Pos m solar thermal W p ws dw Wp DW Bs Bl m G (le_n m) i Hi)|exact (d_P1m n m solar thermal W p ws dw Wp DW m (le_n m) i Hi)].
  - destruct (Top ltac:(lia)) as (D1 & D2). split.
    + apply (eq_around (fun s => Ip s (S k) i 0)); [|exact D1]. refine (around_imp p _ _ _ At). intros s ((_ & J & _) & _). destruct (J k i ltac:(lia) Hi) as (_ & ->). reflexivity.
    + apply (eq_around (fun s => Im s (S k) i 0)); [|exact D2]. refine (around_imp p _ _ _ At). intros s ((_ & J & _) & _). destruct (J k i ltac:(lia) Hi) as (-> & _). reflexivity.
Qed.

(** At an optical depth that keeps its place in the layer *)
Section Depth.
Variables (ul : nat) (u : R).
Hypothesis Hu : (ul <= m)%nat.
Hypothesis Th0 : thermal = false.
Hypothesis L0 : ltau (XS p ul) <> 0.
Hypothesis Lz : dl ul = false -> ltau (dxs ul) = 0.
Definition place (s : R) : R := u * (ltau (XS s ul) / ltau (XS p ul)).
Notation u_l := (u * ltau (dxs ul) / ltau (XS p ul)).
Definition fall (s : R) (w : waves) : vec := fun j => exp (- b_nu w j * place s).
Definition rise (s : R) (w : waves) : vec := fun j => exp (- b_nu w j * (b_ltau w - place s)).
Lemma place_p : place p = u.
Proof using L0. unfold place. field. exact L0. Qed.
Section Paths.
Variables (W : R -> nat -> waves) (Bs : R -> vec) (Bl : vec).
Hypothesis Wp : W p = ws.
Hypothesis Wlt : forall s k, b_ltau (W s k) = ltau (XS s k).
Hypothesis DW : forall k, (k <= m)%nat -> wderiv n solar thermal (fun s => W s k) p (dw k).
Hypothesis G : grows n m p Bs Bl.
Lemma d_ltau : derivable_pt_lim (fun s => b_ltau (W s ul)) p (ltau (dxs ul)).
Proof using DW Hu Lz. destruct (DW ul Hu) as (D & _). eapply dl_eq; [exact D|]. cbn [masked b_ltau waves_l_of]. case_eq (dl ul); intros E; unfold when; [reflexivity|symmetry; exact (Lz E)]. Qed.
Lemma d_place : derivable_pt_lim place p u_l.
Proof using DW Hu Lz L0 Wlt.
  apply (eq_around (fun s => u / ltau (XS p ul) * b_ltau (W s ul))); [apply around_true; intros s; rewrite Wlt; unfold place; field; exact L0|].
  eapply dl_eq; [apply dl_scal; exact d_ltau|]. field. exact L0.
Qed.
Lemma d_fall : vderiv n (fun s => fall s (W s ul)) p (fun j => when (dl ul) (- (b_nu (wl ul) j * (u - 0) + b_nu (ws ul) j * u_l) * exp (- b_nu (ws ul) j * (u - 0)))).
Proof using DW Hu Lz L0 Wlt Wp.
  intros j Hj. destruct (DW ul Hu) as (_ & DN & _). unfold fall.
  eapply dl_eq; [apply (dl_exp (fun s => - b_nu (W s ul) j * place s)); apply (dl_mult (fun s => - b_nu (W s ul) j) place); [apply derivable_pt_lim_opp; apply DN; exact Hj|exact d_place]|].
  cbv beta. rewrite Wp, place_p. rewrite Rminus_0_r. cbv beta. cbn [masked b_nu]. case_eq (dl ul); intros E; unfold when; [|rewrite (Lz E)]; unfold Rdiv; ring.
Qed.
Lemma d_rise : vderiv n (fun s => rise s (W s ul)) p
  (fun j => when (dl ul) (- (b_nu (wl ul) j * (b_ltau (ws ul) - u) + b_nu (ws ul) j * (ltau (dxs ul) - u_l)) * exp (- b_nu (ws ul) j * (b_ltau (ws ul) - u)))).
Proof using DW Hu Lz L0 Wlt Wp.
  intros j Hj. destruct (DW ul Hu) as (_ & DN & _). unfold rise.
  eapply dl_eq; [apply (dl_exp (fun s => - b_nu (W s ul) j * (b_ltau (W s ul) - place s))); apply (dl_mult (fun s => - b_nu (W s ul) j) (fun s => b_ltau (W s ul) - place s));
    [apply derivable_pt_lim_opp; apply DN; exact Hj|apply (dl_minus (fun s => b_ltau (W s ul)) place); [exact d_ltau|exact d_place]]|].
  cbv beta. rewrite Wp, place_p. cbv beta. cbn [masked b_nu]. case_eq (dl ul); intros E; unfold when; [|rewrite (Lz E)]; unfold Rdiv; ring.
Qed.
Lemma d_scaled : forall (f : R -> vec) f' q, vderiv n f p f' -> (q < K)%nat -> vderiv n (fun s j => f s j * part n (Bs s) q j) p (fun j => f' j * part n (Bs p) q j + f p j * part n Bl q j).
Proof using G Pos. intros f f' q F Hq j Hj. apply (dl_mult (fun s => f s j) (fun s => part n (Bs s) q j)); [exact (F j Hj)|exact (d_part n Pos m p Bs Bl q G Hq j Hj)]. Qed.
Lemma d_ray : solar = true -> derivable_pt_lim (fun s => exp (- place s * b_as0 (W s ul))) p (when (db ul) (- (u_l * b_as0 (ws ul) + u * as_0 (dxs ul)) * exp (- u * b_as0 (ws ul)))).
Proof using DW Hu Lz L0 Wlt Wp An.
  intros S. destruct (DW ul Hu) as (_ & _ & _ & _ & So' & _). destruct (So' S) as (_ & DA & _). destruct (An ul Hu) as (_ & _ & Fb & _).
  eapply dl_eq; [apply (dl_exp (fun s => - place s * b_as0 (W s ul))); apply (dl_mult (fun s => - place s) (fun s => b_as0 (W s ul))); [apply derivable_pt_lim_opp; exact d_place|exact DA]|].
  cbv beta. rewrite Wp, place_p. cbv beta. cbn [masked b_as0 waves_l_of]. case_eq (db ul); intros E; unfold when; [ring|]. case_eq (dl ul); intros D; [rewrite (Fb D S) in E; discriminate|]. rewrite (Lz D). unfold Rdiv. ring.
Qed.
End Paths.
Lemma depths_move : exists v d,
  bvp_depth_l n solve eig gb m (XS p) dxs surf Rs_l dl db dt solar thermal (T p) (Bt p) top_l bot_l old ul u = Ok (v, d) /\
  forall Ip Im : R -> nat -> beam, 0 <= u <= ltau (XS p ul) -> around p (fun s => atmosphere n m solar thermal (XS s) (reflector (surface_at sf s)) (T s) (Bt s) (Ip s) (Im s)) ->
    forall i, (i < n)%nat -> derivable_pt_lim (fun s => Ip s ul i (place s)) p (v i) /\ derivable_pt_lim (fun s => Im s ul i (place s)) p (d i).
Proof using Pos Ro SolveS Norm So An DS DT DB Dark Hu Th0 L0 Lz.
  destruct moving as (EE & Bs & Bl & EB & Wp & DW & G & Ar). cbv zeta in Wp, DW. set (W := fun s k => waves_of n solve (EE s k) (XS s k)) in *.
  assert (forall s k, b_ltau (W s k) = ltau (XS s k)) as Wlt by reflexivity.
  assert (W p ul = waves_of n solve eig (XS p ul)) as Wp' by exact (f_equal (fun f => f ul) Wp).
  pose proof (d_fall W Wp Wlt DW) as DF. pose proof (d_rise W Wp Wlt DW) as DR. pose proof (d_ray W Wp Wlt DW) as DA.
  pose proof (d_scaled Bs Bl G (fun s => fall s (W s ul)) _ (2 * ul) DF ltac:(lia)) as D1. pose proof (d_scaled Bs Bl G (fun s => rise s (W s ul)) _ (2 * ul + 1) DR ltac:(lia)) as D2.
  destruct (DW ul Hu) as (_ & _ & _ & _ & DSo & _).
  eexists. eexists. split.
  { unfold bvp_depth_l. cbv zeta. rewrite EB. cbn [bind fst snd]. unfold depth_l. replace (m <? ul)%nat with false by (symmetry; apply Nat.ltb_ge; exact Hu). reflexivity. }
  intros Ip Im Ru At i Hi.
  assert (around p (fun s => light_p n solve (EE s) solar thermal (XS s) (Bs s) ul i (place s) = Ip s ul i (place s) /\ light_m n solve (EE s) solar thermal (XS s) (Bs s) ul i (place s) = Im s ul i (place s))) as Eq.
  { refine (around_imp p _ _ _ (around_and p _ _ Ar At)). intros s ((Ok' & _ & Sm) & A). specialize (Sm _ _ A). destruct (Ok' ul Hu) as ((_ & LP & _) & _).
    assert (0 < ltau (XS p ul)) as LP0 by lra. assert (0 <= place s <= ltau (XS s ul)) as Pl.
    { unfold place. replace (u * (ltau (XS s ul) / ltau (XS p ul))) with (u / ltau (XS p ul) * ltau (XS s ul)) by (field; exact L0).
      assert (0 <= u / ltau (XS p ul)) as F0 by (apply Rmult_le_pos; [lra|apply Rlt_le, Rinv_0_lt_compat, LP0]).
      assert (u / ltau (XS p ul) <= 1) as F1 by (apply Rmult_le_reg_r with (ltau (XS p ul)); [exact LP0|]; replace (u / ltau (XS p ul) * ltau (XS p ul)) with u by (field; exact L0); lra).
      split; [apply Rmult_le_pos; assumption|]. rewrite <- (Rmult_1_l (ltau (XS s ul))) at 2. apply Rmult_le_compat_r; assumption. }
    destruct (Sm ul i (place s) Hu Hi Pl) as (-> & ->). split; reflexivity. }
  assert (forall s, light_p n solve (EE s) solar thermal (XS s) (Bs s) ul i (place s) =
    mv n (b_Xp (W s ul)) (fun j => fall s (W s ul) j * part n (Bs s) (2 * ul) j) i + mv n (b_Xm (W s ul)) (fun j => rise s (W s ul) j * part n (Bs s) (2 * ul + 1) j) i
    + (if solar then b_Fp (W s ul) i * exp (- place s * b_as0 (W s ul)) else 0)) as Lp.
  { intros s. unfold light_p, part_p. rewrite hom_p_is, Th0. unfold W. cbn [waves_of b_Fp b_as0]. unfold vscale. replace (- place s * as_0 (XS s ul)) with (- as_0 (XS s ul) * place s) by ring.
    f_equal. rewrite Rplus_0_r. case solar; ring. }
  assert (forall s, light_m n solve (EE s) solar thermal (XS s) (Bs s) ul i (place s) =
    - mv n (b_Xm (W s ul)) (fun j => fall s (W s ul) j * part n (Bs s) (2 * ul) j) i - mv n (b_Xp (W s ul)) (fun j => rise s (W s ul) j * part n (Bs s) (2 * ul + 1) j) i
    + (if solar then b_Fm (W s ul) i * exp (- place s * b_as0 (W s ul)) else 0)) as Lm.
  { intros s. unfold light_m, part_m. rewrite hom_m_is, Th0. unfold W. cbn [waves_of b_Fm b_as0]. unfold vscale. replace (- place s * as_0 (XS s ul)) with (- as_0 (XS s ul) * place s) by ring.
    f_equal. rewrite Rplus_0_r. case solar; ring. }
  split.
  - apply (eq_around _ _ _ _ (around_imp p _ _ (fun s H => eq_trans (eq_sym (Lp s)) (proj1 H)) Eq)).
    eapply dl_eq; [apply dl_plus; [apply dl_plus; [exact (d_Xp_mv n m solar thermal W p ws dw Wp DW ul _ _ Hu D1 i Hi)|exact (d_Xm_mv n m solar thermal W p ws dw Wp DW ul _ _ Hu D2 i Hi)]|
      apply (d_if p solar); intros S; apply (dl_mult (fun s => b_Fp (W s ul) i)); [destruct (DSo S) as (_ & _ & A & _); exact (A i Hi)|exact (DA S)]]|].
    cbv beta. rewrite !(when_and n Pos). fold W. rewrite ?Wp'. unfold fall, rise. rewrite place_p. f_equal.
    + collect. apply total_ext. intros j Hj. unfold part. destruct (IX n Pos ul j) as (-> & -> & _). rewrite Rminus_0_r. cbn [masked waves_l_of waves_of b_Xp b_Xm b_ltau b_nu].
      case (dl ul); unfold when; ring.
    + cbn [masked waves_l_of b_Fp b_as0 b_ltau]. case solar; case (db ul); unfold when; cbn [waves_of b_ltau b_as0 b_Fp]; ring.
  - apply (eq_around _ _ _ _ (around_imp p _ _ (fun s H => eq_trans (eq_sym (Lm s)) (proj2 H)) Eq)).
    eapply dl_eq; [apply dl_plus; [apply dl_minus; [apply derivable_pt_lim_opp; exact (d_Xm_mv n m solar thermal W p ws dw Wp DW ul _ _ Hu D1 i Hi)|exact (d_Xp_mv n m solar thermal W p ws dw Wp DW ul _ _ Hu D2 i Hi)]|
      apply (d_if p solar); intros S; apply (dl_mult (fun s => b_Fm (W s ul) i)); [destruct (DSo S) as (_ & _ & _ & A); exact (A i Hi)|exact (DA S)]]|].
    cbv beta. rewrite !(when_and n Pos). fold W. rewrite ?Wp'. unfold fall, rise. rewrite place_p. f_equal.
    + collect. apply total_ext. intros j Hj. unfold part. destruct (IX n Pos ul j) as (-> & -> & _). rewrite Rminus_0_r. cbn [masked waves_l_of waves_of b_Xp b_Xm b_ltau b_nu].
      case (dl ul); unfold when; ring.
    + cbn [masked waves_l_of b_Fm b_as0 b_ltau]. case solar; case (db ul); unfold when; cbn [waves_of b_ltau b_as0 b_Fm]; ring.
Qed.
End Depth.
End Moving.

(** * The property *)
(** The derivatives are computed for every level, and they are those of the light at the level, which exists and is unique. *)
Theorem C49_levels : forall n m solve eig gb solar thermal dl db dt XS sf T Bt p dxs Rs_l top_l bot_l old, (0 < n)%nat -> routines n m thermal solve eig gb -> solver (S n) (solve (S n)) -> normalised n eig ->
  around p (fun s => sound n m solar thermal (XS s) (surface_at sf s)) -> announced n m solar thermal dl db dt XS p dxs -> surface_moves n sf p (dl (S m)) Rs_l ->
  vderiv n T p top_l -> vderiv n Bt p bot_l -> (sf = None -> forall i, (i < n)%nat -> bot_l i = 0) ->
  (exists Ip Im : R -> nat -> beam, around p (fun s => atmosphere n m solar thermal (XS s) (reflector (surface_at sf s)) (T s) (Bt s) (Ip s) (Im s))) /\
  forall ul, (ul <= S m)%nat -> exists u d, bvp_level_l n solve eig gb m (XS p) dxs (surface_at sf p) Rs_l dl db dt solar thermal (T p) (Bt p) top_l bot_l old ul = Ok (u, d) /\
    forall Ip Im : R -> nat -> beam, around p (fun s => atmosphere n m solar thermal (XS s) (reflector (surface_at sf s)) (T s) (Bt s) (Ip s) (Im s)) ->
    forall i, (i < n)%nat ->
      ((ul <= m)%nat -> derivable_pt_lim (fun s => Ip s ul i 0) p (u i) /\ derivable_pt_lim (fun s => Im s ul i 0) p (d i)) /\
      (forall k, ul = S k -> derivable_pt_lim (fun s => Ip s k i (ltau (XS s k))) p (u i) /\ derivable_pt_lim (fun s => Im s k i (ltau (XS s k))) p (d i)).
Proof.
  intros n m solve eig gb solar thermal dl db dt XS sf T Bt p dxs Rs_l top_l bot_l old Pos Ro SS Nm So An DS DT DB Dk.
  split; [apply (lit_near n m solve eig gb solar thermal dl db dt XS sf T Bt p dxs Rs_l top_l bot_l old); assumption|].
  apply (levels_move n m solve eig gb solar thermal dl db dt XS sf T Bt p dxs Rs_l top_l bot_l old); assumption.
Qed.
(** With the flags that the handle computes for derivative j, the conditions between the flags hold. *)
Theorem C49_handle_levels : forall n m solve eig gb d first o j XS sf T Bt p dxs Rs_l top_l bot_l old,
  let solar := l_solar d in let thermal := l_thermal d in let v := build_set d first o in
  let dl := fun k => tr (v_layers v k j) in let db := fun k => tr (v_beam v k j) in let dt := fun k => tr (v_thermal v k j) in
  (0 < n)%nat -> routines n m thermal solve eig gb -> solver (S n) (solve (S n)) -> normalised n eig -> l_layers d = S m -> (j < l_derivs d)%nat ->
  around p (fun s => sound n m solar thermal (XS s) (surface_at sf s)) ->
  (forall k, (k <= m)%nat -> let x := XS p k in varies n (dl k) (solar && db k) (thermal && dt k) (fun s => XS s k) p (dxs k) /\
    (dl k = true -> simple_spectrum n (qx x) (qw x) ((1 + (if zeroth x then 1 else 0)) / 4 * omega x) (P_pp x) (P_mp x) /\
                    coupled n (qx x) (qw x) ((1 + (if zeroth x then 1 else 0)) / 4 * omega x) (P_pp x) (P_mp x))) ->
  surface_moves n sf p (dl (S m)) Rs_l -> vderiv n T p top_l -> vderiv n Bt p bot_l -> (sf = None -> forall i, (i < n)%nat -> bot_l i = 0) ->
  forall ul, (ul <= S m)%nat -> exists u d', bvp_level_l n solve eig gb m (XS p) dxs (surface_at sf p) Rs_l dl db dt solar thermal (T p) (Bt p) top_l bot_l old ul = Ok (u, d') /\
    forall Ip Im : R -> nat -> beam, around p (fun s => atmosphere n m solar thermal (XS s) (reflector (surface_at sf s)) (T s) (Bt s) (Ip s) (Im s)) ->
    forall i, (i < n)%nat ->
      ((ul <= m)%nat -> derivable_pt_lim (fun s => Ip s ul i 0) p (u i) /\ derivable_pt_lim (fun s => Im s ul i 0) p (d' i)) /\
      (forall k, ul = S k -> derivable_pt_lim (fun s => Ip s k i (ltau (XS s k))) p (u i) /\ derivable_pt_lim (fun s => Im s k i (ltau (XS s k))) p (d' i)).
Proof.
  intros n m solve eig gb d first o j XS sf T Bt p dxs Rs_l top_l bot_l old solar thermal v dl db dt Pos Ro SS Nm E1 Hj So An DS DT DB Dk.
  apply (levels_move n m solve eig gb solar thermal dl db dt XS sf T Bt p dxs Rs_l top_l bot_l old); try assumption.
  intros k Hk. destruct (An k Hk) as (Va & Sm). destruct (handle_flags d first o k j ltac:(lia) Hj) as (F1 & F2 & _). refine (conj Va (conj Sm (conj _ _))).
  - intros D S. specialize (F1 D S). fold solar in F1. rewrite S in F1. exact F1.
  - intros D S. specialize (F2 D S). fold thermal in F2. rewrite S in F2. exact F2.
Qed.
(** At an optical depth inside a layer: the derivative of the light at the same fraction of the thickness of the layer *)
Theorem C49_depths : forall n m solve eig gb solar dl db dt XS sf T Bt p dxs Rs_l top_l bot_l old, (0 < n)%nat -> routines n m false solve eig gb -> solver (S n) (solve (S n)) -> normalised n eig ->
  around p (fun s => sound n m solar false (XS s) (surface_at sf s)) -> announced n m solar false dl db dt XS p dxs -> surface_moves n sf p (dl (S m)) Rs_l ->
  vderiv n T p top_l -> vderiv n Bt p bot_l -> (sf = None -> forall i, (i < n)%nat -> bot_l i = 0) ->
  forall ul x, (ul <= m)%nat -> ltau (XS p ul) <> 0 -> (dl ul = false -> ltau (dxs ul) = 0) ->
  exists u d, bvp_depth_l n solve eig gb m (XS p) dxs (surface_at sf p) Rs_l dl db dt solar false (T p) (Bt p) top_l bot_l old ul x = Ok (u, d) /\
    forall Ip Im : R -> nat -> beam, 0 <= x <= ltau (XS p ul) -> around p (fun s => atmosphere n m solar false (XS s) (reflector (surface_at sf s)) (T s) (Bt s) (Ip s) (Im s)) ->
    forall i, (i < n)%nat -> derivable_pt_lim (fun s => Ip s ul i (x * (ltau (XS s ul) / ltau (XS p ul)))) p (u i) /\ derivable_pt_lim (fun s => Im s ul i (x * (ltau (XS s ul) / ltau (XS p ul)))) p (d i).
Proof.
  intros n m solve eig gb solar dl db dt XS sf T Bt p dxs Rs_l top_l bot_l old Pos Ro SS Nm So An DS DT DB Dk ul x Hu L0 Lz.
  apply (depths_move n m solve eig gb solar false dl db dt XS sf T Bt p dxs Rs_l top_l bot_l old); try assumption. reflexivity.
Qed.
(** Whatever the inputs, nothing is overrun: the only failure is the one the factorisation reports. *)
Theorem C49_inside_the_array : forall n m solve eig gb solar thermal dl db dt xs dxs surf Rs_l top bot top_l bot_l old, (0 < n)%nat ->
  (forall ul, (ul <= S m)%nat -> (exists u d, bvp_level_l n solve eig gb m xs dxs surf Rs_l dl db dt solar thermal top bot top_l bot_l old ul = Ok (u, d)) \/
    (bvp_level_l n solve eig gb m xs dxs surf Rs_l dl db dt solar thermal top bot top_l bot_l old ul = Err 1%Z /\ exists a, gb (n_comp n m) (n_diags n) (n_diags n) a = None)) /\
  (forall ul s, (ul <= m)%nat -> (exists u d, bvp_depth_l n solve eig gb m xs dxs surf Rs_l dl db dt solar thermal top bot top_l bot_l old ul s = Ok (u, d)) \/
    (bvp_depth_l n solve eig gb m xs dxs surf Rs_l dl db dt solar thermal top bot top_l bot_l old ul s = Err 1%Z /\ exists a, gb (n_comp n m) (n_diags n) (n_diags n) a = None)).
Proof.
  intros n m solve eig gb solar thermal dl db dt xs dxs surf Rs_l top bot top_l bot_l old Pos.
  destruct (assembled n Pos m (fun k => waves_of n solve eig (xs k)) surf) as (a & E & _).
  unfold bvp_level_l, bvp_depth_l, solve_bvp_l. rewrite E. unfold bind.
  destruct (gb (n_comp n m) (n_diags n) (n_diags n) a) as [f|] eqn:G.
  - split.
    + intros ul Hu. left. unfold level_l. replace (S m <? ul)%nat with false by (symmetry; apply Nat.ltb_ge; exact Hu). destruct (negb _); eexists; eexists; reflexivity.
    + intros ul s Hu. left. unfold depth_l. replace (m <? ul)%nat with false by (symmetry; apply Nat.ltb_ge; exact Hu). eexists. eexists. reflexivity.
  - split; intros; right; (split; [reflexivity|exists a; exact G]).
Qed.

(** * What the derivatives are not *)
(** A layer that does not scatter, of thickness l *)
Definition clear (l : R) : slab := {| qx := fun _ => 1; qw := fun _ => 1; zeroth := true; flux0 := 1; omega := 0; ltau := l; as_0 := 1; atran := 1; btran := 1;
  planck0 := 0; planck1 := 0; P_pp := fun _ _ => 1; P_mp := fun _ _ => 1; Q_mm := fun _ => 1; Q_pm := fun _ => 1 |}.
Lemma clear_routines : routines 1 0 false warm_solve eig1 gauss_band.
Proof. refine (conj (gauss_solver 1) (conj _ (conj eig1_ok (gauss_band_solver _ _ _)))). discriminate. Qed.
Lemma clear_sound : forall l, 0 <= l -> sound 1 0 false false (fun _ => clear l) None.
Proof.
  intros l L. split.
  - intros k Hk. refine (conj _ (conj eq_refl eq_refl)). unfold layer_inputs. refine (conj _ (conj L (conj _ (conj _ (conj _ _))))); try discriminate.
    + refine (conj _ (conj _ _)).
      * intros i Hi. cbn. lra.
      * intros i j Hi Hj. cbn. split; reflexivity.
      * intros i Hi _. unfold total, factor. cbn. rewrite !Rmult_0_r, Rabs_R0. lra.
    + intros _. exists (eig1 (second_order 1 (qx (clear l)) (qw (clear l)) (factor (clear l) 1 * omega (clear l)) (P_pp (clear l)) (P_mp (clear l)))). apply eig1_system.
  - intros v. unfold power, weights, reflector, total, zmat. cbn. nra.
Qed.
(** Light that falls on the top of it, [a], and on its bottom, [b] *)
Lemma clear_light : forall l a b, atmosphere 1 0 false false (fun _ => clear l) zmat (fun _ => a) (fun _ => b) (fun _ _ x => b * exp (- (l - x))) (fun _ _ x => a * exp (- x)).
Proof.
  intros l a b. refine (conj (conj _ (conj _ _)) _).
  - intros k Hk i t Hi Ht. unfold scattered, source. cbn [clear qx qw zeroth omega]. split.
    + eapply dl_eq; [apply dl_scal; apply (dl_exp (fun x => - (l - x))); apply (derivable_pt_lim_opp (fun x => l - x)); apply (dl_minus (fun _ => l) (fun x => x)); [apply dl_const|apply dl_id]|]. cbv beta. field.
    + eapply dl_eq; [apply dl_scal; apply (dl_exp (fun x => - x)); apply (derivable_pt_lim_opp (fun x => x)); apply dl_id|]. cbv beta. field.
  - intros k i Hk. lia.
  - intros i Hi. replace (- 0) with 0 by ring. rewrite exp_0. ring.
  - intros i Hi. cbn [clear ltau]. replace (- (l - l)) with 0 by ring. rewrite exp_0. unfold total, zmat. cbn. ring.
Qed.
Definition grow (l : R) : slab := {| qx := zvec; qw := zvec; zeroth := true; flux0 := 0; omega := 0; ltau := l; as_0 := 0; atran := 0; btran := 0;
  planck0 := 0; planck1 := 0; P_pp := zmat; P_mp := zmat; Q_mm := zvec; Q_pm := zvec |}.
Lemma clear_announced : forall dl : nat -> bool, announced 1 0 false false dl (fun _ => false) (fun _ => false) (fun s _ => clear (if dl 0%nat then 1 + s else 1)) 0 (fun _ => grow 1).
Proof.
  intros dl k Hk. assert (k = 0%nat) as -> by lia. cbv zeta. refine (conj _ (conj _ (conj _ _))).
  - unfold varies. cbn [andb clear grow qx qw zeroth flux0 omega ltau as_0 atran btran planck0 planck1 P_pp P_mp Q_mm Q_pm]. refine (conj _ (conj _ (conj _ _))); [intros s; repeat split| |intros s; repeat split|intros s; repeat split].
    case (dl 0%nat).
    + refine (conj _ (conj _ (conj _ (conj _ (conj _ _))))); [apply dl_const|apply plus_s|intros i j _ _; apply dl_const|intros i j _ _; apply dl_const|intros i _; apply dl_const|intros i _; apply dl_const].
    + intros s. repeat split.
  - intros _. apply simple_1.
  - discriminate.
  - discriminate.
Qed.

(** Not the derivative at a fixed optical depth: below the top of a layer that grows the light does not change, the derivative computed does not vanish. *)
Theorem C49_fixed_depth_refuted : exists n m solve eig gb dl db dt XS T Bt p dxs, (0 < n)%nat /\ routines n m false solve eig gb /\ solver (S n) (solve (S n)) /\ normalised n eig /\
  around p (fun s => sound n m false false (XS s) None) /\ announced n m false false dl db dt XS p dxs /\ vderiv n T p zvec /\ vderiv n Bt p zvec /\
  exists x u d Ip Im, 0 < x < ltau (XS p 0%nat) /\ bvp_depth_l n solve eig gb m (XS p) dxs None zmat dl db dt false false (T p) (Bt p) zvec zvec zvec 0 x = Ok (u, d) /\
    around p (fun s => atmosphere n m false false (XS s) zmat (T s) (Bt s) (Ip s) (Im s)) /\ derivable_pt_lim (fun s => Im s 0%nat 0%nat x) p 0 /\ d 0%nat <> 0.
Proof.
  exists 1%nat, 0%nat, warm_solve, eig1, gauss_band, (fun _ => true), (fun _ => false), (fun _ => false), (fun s _ => clear (1 + s)), (fun _ _ => 1), (fun _ _ => 0), 0, (fun _ => grow 1).
  assert (around 0 (fun s => sound 1 0 false false (fun _ => clear (1 + s)) None)) as So.
  { exists 1. split; [lra|]. intros s Hs. rewrite Rminus_0_r in Hs. apply Rabs_def2 in Hs. apply clear_sound. lra. }
  pose proof (clear_announced (fun _ => true)) as An. cbv beta in An.
  assert (vderiv 1 (fun _ _ => 1) 0 zvec) as D1 by (intros i _; apply dl_const). assert (vderiv 1 (fun _ _ => 0) 0 zvec) as D0 by (intros i _; apply dl_const).
  refine (conj (le_n 1) (conj clear_routines (conj (gauss_solver 2) (conj eig1_normalised (conj So (conj An (conj D1 (conj D0 _)))))))).
  destruct (C49_depths 1 0 warm_solve eig1 gauss_band false (fun _ => true) (fun _ => false) (fun _ => false) (fun s _ => clear (1 + s)) None (fun _ _ => 1) (fun _ _ => 0) 0 (fun _ => grow 1) zmat zvec zvec zvec
    (le_n 1) clear_routines (gauss_solver 2) eig1_normalised So An I D1 D0 (fun _ i _ => eq_refl) 0%nat (/ 2) (le_n 0) ltac:(cbn; lra) ltac:(discriminate)) as (u & d & E & H).
  exists (/ 2), u, d, (fun s _ _ x => 0 * exp (- (1 + s - x))), (fun s _ _ x => 1 * exp (- x)).
  assert (around 0 (fun s => atmosphere 1 0 false false (fun _ => clear (1 + s)) zmat (fun _ => 1) (fun _ => 0) (fun _ _ x => 0 * exp (- (1 + s - x))) (fun _ _ x => 1 * exp (- x)))) as At
    by (apply around_true; intros s; apply clear_light).
  refine (conj _ (conj _ (conj At (conj _ _)))).
  - cbn. lra.
  - exact E.
  - apply dl_const.
  - destruct (H _ _ ltac:(cbn; lra) At 0%nat (le_n 1)) as (_ & D). cbv beta in D. cbn [clear ltau] in D.
    assert (derivable_pt_lim (fun s => 1 * exp (- (/ 2 * ((1 + s) / (1 + 0))))) 0 (- / 2 * exp (- / 2))) as D2.
    { eapply dl_eq; [apply dl_scal; apply (dl_exp (fun s => - (/ 2 * ((1 + s) / (1 + 0))))); apply derivable_pt_lim_opp; apply (dl_scal (fun s => (1 + s) / (1 + 0))); unfold Rdiv; apply (derivable_pt_lim_mult (fun s => 1 + s) (fun _ => / (1 + 0))); [apply plus_s|apply dl_const]|].
      cbv beta. replace (- (/ 2 * ((1 + 0) / (1 + 0)))) with (- / 2) by field. field. }
    rewrite (uniqueness_limite _ _ _ _ D D2). pose proof (exp_pos (- / 2)). lra.
Qed.
(** Without a surface the derivative of the light that comes from below is not read. *)
Theorem C49_no_surface_refuted : exists n m solve eig gb dl db dt XS T Bt p dxs bot_l, (0 < n)%nat /\ routines n m false solve eig gb /\ solver (S n) (solve (S n)) /\ normalised n eig /\
  around p (fun s => sound n m false false (XS s) None) /\ announced n m false false dl db dt XS p dxs /\ vderiv n T p zvec /\ vderiv n Bt p bot_l /\
  exists u d Ip Im l, bvp_level_l n solve eig gb m (XS p) dxs None zmat dl db dt false false (T p) (Bt p) zvec bot_l zvec 0 = Ok (u, d) /\
    around p (fun s => atmosphere n m false false (XS s) zmat (T s) (Bt s) (Ip s) (Im s)) /\ derivable_pt_lim (fun s => Ip s 0%nat 0%nat 0) p l /\ u 0%nat <> l.
Proof.
  exists 1%nat, 0%nat, warm_solve, eig1, gauss_band, (fun _ => false), (fun _ => false), (fun _ => false), (fun s _ => clear 1), (fun _ _ => 0), (fun s _ => s), 0, (fun _ => grow 1), (fun _ => 1).
  assert (around 0 (fun s => sound 1 0 false false (fun _ => clear 1) None)) as So by (apply around_true; intros s; apply clear_sound; lra).
  pose proof (clear_announced (fun _ => false)) as An. cbv beta in An.
  assert (vderiv 1 (fun _ _ => 0) 0 zvec) as D0 by (intros i _; apply dl_const). assert (vderiv 1 (fun s _ => s) 0 (fun _ => 1)) as D1 by (intros i _; apply dl_id).
  refine (conj (le_n 1) (conj clear_routines (conj (gauss_solver 2) (conj eig1_normalised (conj So (conj An (conj D0 (conj D1 _)))))))).
  destruct (C49_levels 1 0 warm_solve eig1 gauss_band false false (fun _ => false) (fun _ => false) (fun _ => false) (fun s _ => clear 1) None (fun _ _ => 0) (fun _ _ => 0) 0 (fun _ => grow 1) zmat zvec zvec zvec
    (le_n 1) clear_routines (gauss_solver 2) eig1_normalised So An I D0 D0 (fun _ i _ => eq_refl)) as (_ & L).
  destruct (L 0%nat (le_S _ _ (le_n 0))) as (u & d & E & H).
  exists u, d, (fun s _ _ x => s * exp (- (1 - x))), (fun s _ _ x => 0 * exp (- x)), (exp (- 1)). refine (conj _ (conj _ (conj _ _))).
  - exact E.
  - apply around_true. intros s. apply clear_light.
  - eapply dl_eq; [apply (dl_mult (fun s => s) (fun _ => exp (- (1 - 0)))); [apply dl_id|apply dl_const]|]. cbv beta. replace (- (1 - 0)) with (- 1) by ring. ring.
  - assert (around 0 (fun s : R => atmosphere 1 0 false false (fun _ => clear 1) zmat (fun _ => 0) (fun _ => 0) (fun _ _ x => 0 * exp (- (1 - x))) (fun _ _ x => 0 * exp (- x)))) as At by (apply around_true; intros s; apply clear_light).
    destruct (H (fun _ _ _ x => 0 * exp (- (1 - x))) (fun _ _ _ x => 0 * exp (- x)) At 0%nat (le_n 1)) as (D & _). destruct (D (le_n 0)) as (D' & _). cbv beta in D'.
    rewrite (uniqueness_limite _ _ _ _ D' (dl_const _ _)). pose proof (exp_pos (- 1)). lra.
Qed.

(** * Example: two layers above a surface, lit by the sun; the thickness of the upper layer varies (C47). *)
Lemma sky_announced : announced 1 1 true false (fun k => Nat.eqb k 0) (fun _ => true) (fun _ => false) sky 0 sky_l.
Proof.
  intros k Hk. cbv zeta. refine (conj _ (conj _ (conj _ _))).
  - assert (k = 0%nat \/ k = 1%nat) as [ -> | -> ] by lia; cbn [Nat.eqb andb]; unfold varies, sky, sky_l; cbn [Nat.eqb slab_of slab_of_l qx qw zeroth flux0 omega ltau as_0 atran btran planck0 planck1 P_pp P_mp Q_mm Q_pm].
    + refine (conj _ (conj (conj _ (conj _ (conj _ (conj _ (conj _ _))))) (conj (conj _ (conj _ _)) _))).
      * intros s. repeat split.
      * apply dl_const.
      * apply plus_s.
      * intros i j _ _. apply dl_const.
      * intros i j _ _. apply dl_const.
      * intros i _. apply dl_const.
      * intros i _. apply dl_const.
      * apply dl_const.
      * exact beam_s.
      * apply dl_const.
      * intros s. split; reflexivity.
    + refine (conj _ (conj _ (conj (conj _ (conj _ _)) _))); try apply dl_const; try (intros s; repeat split; fail). exact beam_s.
  - intros _. apply simple_1.
  - intros _ _. reflexivity.
  - discriminate.
Qed.
Example C49_two_layers : forall Rs_l old, exists u d u' d' Ip Im,
  bvp_level_l 1 warm_solve eig1 gauss_band 1 (sky 0) sky_l (Some ground) Rs_l (fun k => Nat.eqb k 0) (fun _ => true) (fun _ => false) true false zvec (fun _ => exp (- 1 * (1 + 0))) zvec (fun _ => - 1 * exp (- 1)) old 1 = Ok (u, d) /\
  bvp_depth_l 1 warm_solve eig1 gauss_band 1 (sky 0) sky_l (Some ground) Rs_l (fun k => Nat.eqb k 0) (fun _ => true) (fun _ => false) true false zvec (fun _ => exp (- 1 * (1 + 0))) zvec (fun _ => - 1 * exp (- 1)) old 0 (/ 2) = Ok (u', d') /\
  around 0 (fun s => atmosphere 1 1 true false (sky s) ground zvec (fun _ => exp (- 1 * (1 + s))) (Ip s) (Im s)) /\
  derivable_pt_lim (fun s => Ip s 0%nat 0%nat (1 + s)) 0 (u 0%nat) /\ derivable_pt_lim (fun s => Im s 1%nat 0%nat 0) 0 (d 0%nat) /\
  derivable_pt_lim (fun s => Im s 0%nat 0%nat (/ 2 * ((1 + s) / (1 + 0)))) 0 (d' 0%nat).
Proof.
  intros Rs_l old.
  assert (around 0 (fun s => sound 1 1 true false (sky s) (surface_at (Some (fun _ => ground)) s))) as So.
  { exists 1. split; [lra|]. intros s Hs. rewrite Rminus_0_r in Hs. apply Rabs_def2 in Hs. apply sky_is_sound. lra. }
  assert (vderiv 1 (fun _ => zvec) 0 zvec) as D0 by (intros i _; apply dl_const). assert (vderiv 1 (fun s _ => exp (- 1 * (1 + s))) 0 (fun _ => - 1 * exp (- 1))) as D1 by (intros i _; exact beam_s).
  assert (surface_moves 1 (Some (fun _ => ground)) 0 (Nat.eqb 2 0) Rs_l) as DS by (intros i j _ _; apply dl_const).
  destruct (C49_levels 1 1 warm_solve eig1 gauss_band true false (fun k => Nat.eqb k 0) (fun _ => true) (fun _ => false) sky (Some (fun _ => ground)) (fun _ => zvec) (fun s _ => exp (- 1 * (1 + s))) 0 sky_l Rs_l zvec (fun _ => - 1 * exp (- 1)) old
    (le_n 1) sky_routines (gauss_solver 2) eig1_normalised So sky_announced DS D0 D1 ltac:(discriminate)) as ((Ip & Im & At) & L).
  destruct (L 1%nat ltac:(lia)) as (u & d & E & H).
  destruct (C49_depths 1 1 warm_solve eig1 gauss_band true (fun k => Nat.eqb k 0) (fun _ => true) (fun _ => false) sky (Some (fun _ => ground)) (fun _ => zvec) (fun s _ => exp (- 1 * (1 + s))) 0 sky_l Rs_l zvec (fun _ => - 1 * exp (- 1)) old
    (le_n 1) sky_routines (gauss_solver 2) eig1_normalised So sky_announced DS D0 D1 ltac:(discriminate) 0%nat (/ 2) ltac:(lia) ltac:(cbn; lra) ltac:(discriminate)) as (u' & d' & E' & H').
  exists u, d, u', d', Ip, Im. destruct (H Ip Im At 0%nat (le_n 1)) as (H1 & H2). destruct (H' Ip Im ltac:(cbn; lra) At 0%nat (le_n 1)) as (_ & H3).
  refine (conj E (conj E' (conj At (conj _ (conj _ H3))))); [exact (proj1 (H2 0%nat eq_refl))|exact (proj2 (H1 ltac:(lia)))].
Qed.

Print Assumptions C49_levels.
Print Assumptions C49_handle_levels.
Print Assumptions C49_depths.
Print Assumptions C49_inside_the_array.
Print Assumptions C49_fixed_depth_refuted.
Print Assumptions C49_no_surface_refuted.
