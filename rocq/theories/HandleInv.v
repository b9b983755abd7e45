(** The state invariant of a handle and its preservation by lists of writes. *)
From Coq Require Import ZArith NArith List Bool Lia SpecFloat.
From Verif Require Import Base OptionsModel OptionsSpec OptionsProofs Dbl HandleModel HandleTable HandleSetters.
Import ListNotations.
Open Scope Z_scope.

Definition isflag (l : loc) : bool :=
  match l with
  | FlDoub | FlPade | FlSos | FlFourierTol | FlLambda | FlPlanetR | FlLevelsZ | FlUlevels
  | FlUtaus | FlUmus | FlFIsoTop | FlFIsoBot | FlF0 | FlMu0 | FlPhi0 | FlLevelsB | FlSurfaceB
  | FlG _ | FlCoef _ | FlOmega _ | FlLtau _ | FlKAmp _ | FlKPar _ _ | FlKFunc _ => true
  | _ => false
  end.

Section Inv.
Variable cosd : dbl -> dbl.

Definition isD (v : val) (P : dbl -> Prop) : Prop := match v with VD d => P d | VZ _ => False end.
Definition isZ (v : val) (P : Z -> Prop) : Prop := match v with VZ z => P z | VD _ => False end.

(** Admissible contents of a cell. *)
Definition nonneg (d : dbl) : Prop := dlt d d_zero = false.
Definition posi (d : dbl) : Prop := dle d d_zero = false.
Definition angle_cos (d : dbl) : Prop :=
  exists x, dlt x d_zero = false /\ dge x d_90 = false /\ d = cosd x.

Definition okv (c : config) (l : loc) (v : val) : Prop :=
  match l with
  | DoubDTau | SosMaxTau | Lambda | PlanetR | Ltau0 _ => isD v posi
  | SosTol | FourierTol | Utaus _ | FIsoTop | FIsoBot | F0 | LevelsB _ | SurfaceB => isD v nonneg
  | Omega0 _ => isD v (fun d => omega_in d = true)
  | KAmp _ => isD v (fun d => negb (dlt d d_zero || dgt d d_one) = true)
  | Mu00 => isD v angle_cos
  | Qx i => isD v (fun d => c_n_quad c <= i -> angle_cos d)
  | PadeS | PadeR | KFunc _ | NFour2 => isZ v (fun _ => True)
  | SosMaxOs => isZ v (fun n => 0 < n)
  | Ulevels _ => isZ v (fun n => has_opt c OPT_OUTPUT_AT_LEVELS = true -> 0 <= n <= c_n_layers c)
  | NCoefLayer _ => isZ v (fun n => 0 <= n <= c_n_coef c)
  | NCoefLayer2 _ => isZ v (fun n => 0 <= n <= c_n_coef2 c)
  | InputsInit | VariedUpd => isZ v (fun n => n = 0 \/ n = 1)
  | FlDoub | FlPade | FlSos | FlFourierTol | FlLambda | FlPlanetR | FlLevelsZ | FlUlevels
  | FlUtaus | FlUmus | FlFIsoTop | FlFIsoBot | FlF0 | FlMu0 | FlPhi0 | FlLevelsB | FlSurfaceB
  | FlG _ | FlCoef _ | FlOmega _ | FlLtau _ | FlKAmp _ | FlKPar _ _ | FlKFunc _ =>
      isZ v (fun n => n = 0 \/ n = 1)
  | _ => isD v (fun _ => True)
  end.

(** Cells that hold a value from creation on. *)
Definition always (c : config) (l : loc) : bool :=
  match l with
  | VariedUpd | NCoefLayer2 _ | NFour2 | Phi0
  | FIsoTopL _ | FIsoBotL _ | LevelsBL _ _ | SurfaceBL _ | Ltau0L _ _ | Omega0L _ _
  | Coef0L _ _ _ _ | KAmpL _ _ | KParL _ _ _ => true
  | Qx i => in_range i (c_n_quad c)
  | l => isflag l
  end.

(** The set flag that vouches for a cell. *)
Definition flag_of (c : config) (l : loc) : option loc :=
  match l with
  | DoubDTau => Some FlDoub
  | PadeS | PadeR => Some FlPade
  | SosMaxOs | SosMaxTau | SosTol => Some FlSos
  | FourierTol => Some FlFourierTol
  | Lambda => Some FlLambda
  | PlanetR => Some FlPlanetR
  | LevelsZ _ => Some FlLevelsZ
  | Ulevels _ => Some FlUlevels
  | Utaus _ => Some FlUtaus
  | Qx i => if i <? c_n_quad c then None else Some FlUmus
  | FIsoTop => Some FlFIsoTop
  | FIsoBot => Some FlFIsoBot
  | F0 => Some FlF0
  | Mu00 | Mu0 => Some FlMu0
  | LevelsB _ => Some FlLevelsB
  | SurfaceB => Some FlSurfaceB
  | Omega0 i => Some (FlOmega i)
  | Ltau0 i => Some (FlLtau i)
  | KAmp i => Some (FlKAmp i)
  | KPar i j => Some (FlKPar i j)
  | KFunc i => Some (FlKFunc i)
  | _ => None
  end.

(** The inputs a solution needs, as set flags. *)
Definition needed (c : config) (f : loc) : bool :=
  match f with
  | FlDoub => has_slv c SOLVERS_DOUBLING
  | FlPade => has_slv c SOLVER_PADE_ADD
  | FlSos => has_slv c SOLVER_SOS
  | FlFourierTol | FlFIsoTop | FlFIsoBot => true
  | FlPlanetR | FlLevelsZ => has_opt c OPT_PSA
  | FlUlevels => has_opt c OPT_OUTPUT_AT_LEVELS
  | FlUtaus => has_opt c OPT_OUTPUT_AT_TAUS
  | FlUmus => c_n_umus c >? 0
  | FlF0 | FlMu0 | FlPhi0 => has_opt c OPT_SOURCE_SOLAR
  | FlLevelsB | FlSurfaceB => has_opt c OPT_SOURCE_THERMAL
  | FlCoef i => has_slv c SOLVERS_USE_COEF && in_range i (c_n_layers c)
  | FlOmega i | FlLtau i => in_range i (c_n_layers c)
  | FlKAmp i => in_range i (c_n_kernels c)
  | FlKPar i j => in_range i (c_n_kernels c) && in_range j (kernel_n_params (xz (c_kernels c) i))
  | FlKFunc i => in_range i (c_n_kernels c) && (xz (c_kernels c) i =? KERNEL_USER_DEFINED)
  | _ => false
  end.

Definition isset (h : handle) (f : loc) : Prop := h_mem h f = Some (VZ 1).

Record inv (h : handle) : Prop := {
  i_core : core h;
  i_typed : forall l v, h_mem h l = Some v -> okv (h_alloc h) l v;
  i_always : forall l, always (h_alloc h) l = true -> h_mem h l <> None;
  i_flag : forall l f, flag_of (h_alloc h) l = Some f -> isset h f ->
           acc (h_alloc h) (fun _ => true) l = true -> h_mem h l <> None;
  i_ready : iib h = false -> forall f, needed (h_alloc h) f = true -> isset h f }.

(* ------------------------------------------------------------------------- *)

Record wok (h : handle) (w : ws) : Prop := {
  wk_ok : forall l v, In (l, v) w -> okv (h_alloc h) l v;
  wk_flag1 : forall l v, In (l, v) w -> isflag l = true -> v = VZ 1;
  wk_ii : forall l v, In (l, v) w -> l <> InputsInit;
  wk_def : forall f v l, In (f, v) w -> flag_of (h_alloc h) l = Some f ->
           acc (h_alloc h) (fun _ => true) l = true ->
           (exists u, In (l, u) w) \/ h_mem h l <> None }.

Lemma iib_apw w h : (forall l v, In (l, v) w -> l <> InputsInit) -> iib (apw w h) = iib h.
Proof.
  intro H. unfold iib. rewrite apw_other; auto. intros v Hv. now apply (H _ _ Hv).
Qed.

Lemma apw_def w h l : h_mem h l <> None -> h_mem (apw w h) l <> None.
Proof. intro H. destruct (apw_dec w h l) as [[E _]|(v & _ & E)]; rewrite E; auto. discriminate. Qed.

Lemma flag_of_isflag c l f : flag_of c l = Some f -> isflag f = true.
Proof. destruct l; cbn; try discriminate; try (intro H; injection H as <-; reflexivity).
  destruct (i <? c_n_quad c); [discriminate|]. intro H; injection H as <-; reflexivity. Qed.

Lemma needed_isflag c f : needed c f = true -> isflag f = true.
Proof. destruct f; cbn; auto. Qed.

Lemma isset_mono h w f : wok h w -> isflag f = true -> isset h f -> isset (apw w h) f.
Proof.
  intros W I S. unfold isset in *. destruct (apw_dec w h f) as [[E _]|(v & Hv & E)]; rewrite E; auto.
  now rewrite (wk_flag1 _ _ W _ _ Hv I).
Qed.

Lemma core_apw h w : core h -> wok h w -> core (apw w h).
Proof.
  intros C W. pose proof (iib_apw w h (wk_ii _ _ W)) as EI. destruct C as [C1 C2 C3 C4 C5].
  constructor; auto.
  - rewrite apw_other; auto. intros v Hv. now apply (wk_ii _ _ W _ _ Hv).
  - rewrite EI. exact C4.
  - intros i Hi. change (exists n, h_mem (apw w h) (NCoefLayer i) = Some (VZ n) /\ 0 <= n <= c_n_coef (h_alloc h)).
    destruct (apw_dec w h (NCoefLayer i)) as [[E _]|(v & Hv & E)]; rewrite E; auto.
    apply (wk_ok _ _ W) in Hv. cbn in Hv. destruct v; [|easy]. cbn in Hv. eauto.
Qed.

Lemma inv_apw h w : inv h -> wok h w -> inv (apw w h).
Proof.
  intros [I1 I2 I3 I4 I5] W. constructor.
  - now apply core_apw.
  - intros l v. change (h_alloc (apw w h)) with (h_alloc h).
    destruct (apw_dec w h l) as [[E _]|(u & Hu & E)]; rewrite E; auto.
    intro Q. injection Q as <-. eauto using wk_ok.
  - intros l Hl. apply apw_def, I3, Hl.
  - intros l f Hf S A. change (h_alloc (apw w h)) with (h_alloc h) in *.
    unfold isset in S. destruct (apw_dec w h f) as [[E _]|(u & Hu & E)].
    + rewrite E in S. apply apw_def. eauto.
    + destruct (wk_def _ _ W _ _ _ Hu Hf A) as [D|D]; [|now apply apw_def].
      destruct (apw_in w h l D) as (x & _ & ->). discriminate.
  - intros B f Hf. rewrite iib_apw in B by apply (wk_ii _ _ W).
    apply isset_mono; eauto using needed_isflag.
Qed.

(** Changing dependency flags does not matter. *)
Definition setd (D : dloc -> N) (h : handle) : handle :=
  mkH (h_cfg h) (h_alloc h) (h_mem h) (h_live h) D.
Lemma inv_setd h D : inv h -> inv (setd D h).
Proof. intros [[A1 A2 A3 A4 A5] I2 I3 I4 I5]. constructor; auto. constructor; auto. Qed.
Lemma inv_dep_or h m a b : inv h -> inv (dep_or m a b h).
Proof. apply inv_setd. Qed.

End Inv.

(* ------------------------------------------------------------------------- *)
(** * Membership in the write lists                                           *)

Lemma in_row xs f g l v : In (l, v) (row xs f g) <-> exists i, In i xs /\ l = f i /\ v = VD (g i).
Proof.
  unfold row. rewrite in_flat_map. split.
  - intros (i & Hi & [E|[]]). injection E as <- <-. eauto.
  - intros (i & Hi & -> & ->). exists i. split; auto. now left.
Qed.
Lemma in_grid xs ys f g l v :
  In (l, v) (@grid Z xs ys f g) <-> exists i j, In i xs /\ In j ys /\ l = f i j /\ v = VD (g i j).
Proof.
  unfold grid. rewrite in_flat_map. split.
  - intros (i & Hi & H). apply in_flat_map in H as (j & Hj & [E|[]]). injection E as <- <-. eauto 10.
  - intros (i & j & Hi & Hj & -> & ->). exists i. split; auto. apply in_flat_map. exists j. split; auto. now left.
Qed.
Lemma in_eflag b fl l v : In (l, v) (eflag b fl) <-> b = true /\ l = fl /\ v = VZ 1.
Proof.
  unfold eflag. destruct b; cbn; [|intuition discriminate]. split.
  - intros [E|[]]. now injection E as <- <-.
  - intros (_ & -> & ->). now left.
Qed.
Lemma in_rowf b xs f fl g l v : In (l, v) (rowf b xs f fl g) <->
  exists i, In i xs /\ ((l = f i /\ v = VD (g i)) \/ (b = true /\ l = fl i /\ v = VZ 1)).
Proof.
  unfold rowf. rewrite in_flat_map. split.
  - intros (i & Hi & [E|E]).
    + injection E as <- <-. eauto.
    + apply in_eflag in E. eauto.
  - intros (i & Hi & [[-> ->]|E]); exists i; (split; [auto|]).
    + now left.
    + right. now apply in_eflag.
Qed.
Lemma in_coefl h xs ds g l v : In (l, v) (coefl h xs ds g) <->
  exists i d k m, In i xs /\ In d ds /\ 0 <= k < c_n_elem (h_cfg h) /\ 0 <= m < ncl h i
    /\ l = Coef0L i d k m /\ v = VD (g i d k m).
Proof.
  unfold coefl. rewrite in_flat_map. split.
  - intros (i & Hi & H). apply in_flat_map in H as (d & Hd & H). apply in_flat_map in H as (k & Hk & H).
    apply in_flat_map in H as (m & Hm & [E|[]]). apply in_zseq in Hk, Hm. injection E as <- <-.
    exists i, d, k, m. auto 10.
  - intros (i & d & k & m & Hi & Hd & Hk & Hm & -> & ->). exists i. split; auto.
    apply in_flat_map. exists d. split; auto. apply in_flat_map. exists k. split; [now apply in_zseq|].
    apply in_flat_map. exists m. split; [now apply in_zseq|]. now left.
Qed.
