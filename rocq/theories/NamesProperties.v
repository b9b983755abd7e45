(** C25: names, masks and lists of names. *)
From Coq Require Import ZArith List Bool String Ascii Lia.
From Verif Require Import Base OptionsModel NamesModel NamesSpec NamesProofs.
Import ListNotations.
Open Scope Z_scope.

Definition good_tables : list table := [option_table; solver_table; output_table; kernel_table; fd_table].
Definition mask_tables : list table := [option_table; solver_table; output_table].

Fixpoint nodupb {A} (eqb : A -> A -> bool) (l : list A) : bool :=
  match l with [] => true | x :: l => negb (existsb (eqb x) l) && nodupb eqb l end.
Lemma nodupb_ok : forall A (eqb : A -> A -> bool), (forall x y, eqb x y = true <-> x = y) -> forall l, nodupb eqb l = true -> NoDup l.
Proof.
  intros A eqb E. induction l as [|x l IH]; intros H; [constructor|]. cbn in H. apply andb_prop in H as [H1 H2]. constructor; auto.
  intros I. apply negb_true_iff in H1. assert (existsb (eqb x) l = true) by (apply existsb_exists; exists x; split; auto; now apply E). congruence.
Qed.
Lemma good_wf : forall t, In t good_tables -> wf t.
Proof.
  intros t I.
  assert (Z.of_nat (List.length (t_names t)) =? t_n t = true /\ Z.of_nat (List.length (t_values t)) =? t_n t = true /\
          nodupb String.eqb (t_names t) = true /\ nodupb Z.eqb (t_values t) = true) as (A & B & C & D).
  { repeat (destruct I as [<-|I]; [vm_compute; auto|]). destruct I. }
  apply Z.eqb_eq in A, B. constructor; auto.
  - eapply nodupb_ok; [apply String.eqb_eq|exact C].
  - eapply nodupb_ok; [apply Z.eqb_eq|exact D].
Qed.
Lemma mask_good : forall t, In t mask_tables -> In t good_tables.
Proof. intros t H. cbn in *. intuition. Qed.
Lemma mask_bits : forall t, In t mask_tables -> bit_table t (Z.to_nat (t_n t)).
Proof.
  intros t I. split; [apply good_wf, mask_good, I|].
  repeat (destruct I as [<-|I]; [split; [reflexivity|split; [reflexivity|cbn; lia]]|]). destruct I.
Qed.

(** Every index of a table has a name and a value; each determines the other two.  Indices
    outside the table, unknown names and unknown values are refused. *)
Theorem C25_names_round_trip : forall t, In t good_tables ->
  (forall i, 0 <= i < t_n t -> exists s v,
     index_to_name t i = Ok (Some s) /\ index_to_value t i = Ok v /\
     name_to_index t s = Ok i /\ name_to_value t s = Ok v /\
     value_to_index t v = Ok i /\ value_to_name t v = Ok (Some s)) /\
  (forall i, ~ 0 <= i < t_n t -> index_to_name t i = Ok None /\ index_to_value t i = Ok (-1)) /\
  (forall s, ~ In s (t_names t) -> name_to_index t s = Ok (-1) /\ name_to_value t s = Ok (-1)) /\
  (forall v, ~ In v (t_values t) -> value_to_index t v = Ok (-1) /\ value_to_name t v = Ok None).
Proof.
  intros t I. assert (W := good_wf t I). split; [|split; [|split]].
  - intros i R. destruct (nth_error (t_names t) (Z.to_nat i)) as [s|] eqn:S.
    2:{ apply nth_error_None in S. destruct W as [A _ _ _]. lia. }
    destruct (values_at t _ _ W S) as (v & V). exists s, v.
    assert (forall j, Z.of_nat (Z.to_nat i) = j -> j = i) as ZI by (intros; lia).
    assert (AN := aref_ok _ _ _ _ S). assert (AV := aref_ok _ _ _ _ V). rewrite Z2Nat.id in AN, AV by lia.
    rewrite name_to_index_eq, name_to_value_eq, value_to_index_eq, value_to_name_eq by auto.
    rewrite (find_some _ (fun x => String.eqb x s) _ (Z.to_nat i) s) by first [apply W | exact S | intros; apply String.eqb_eq].
    rewrite (find_some _ (fun x => String.eqb s x) _ (Z.to_nat i) s) by first [apply W | exact S | intros; rewrite String.eqb_eq; split; auto].
    rewrite (find_some _ (fun x => v =? x) _ (Z.to_nat i) v) by first [apply W | exact V | intros; rewrite Z.eqb_eq; split; auto].
    unfold index_to_name, index_to_value. destruct (Z.ltb_spec i 0), (Z.leb_spec (t_n t) i); try lia. cbn [orb].
    rewrite AN, AV, Z2Nat.id by lia. rewrite (nth_error_nth _ _ _ V), (nth_error_nth _ _ _ S). auto 10.
  - intros i R. unfold index_to_name, index_to_value. destruct (Z.ltb_spec i 0), (Z.leb_spec (t_n t) i); cbn [orb]; auto; lia.
  - intros s N. rewrite name_to_index_eq, name_to_value_eq by auto. rewrite !find_none; auto; intros y Y; apply String.eqb_neq; congruence.
  - intros v N. rewrite value_to_index_eq, value_to_name_eq by auto. rewrite !find_none; auto; intros y Y; apply Z.eqb_neq; congruence.
Qed.

(** The names in the documentation and the constants they stand for: the masks the model of the options uses (xrtm_interface.h:41-100),
    the outputs (106-111), the kernels (xrtm_brdf.h:22-36) and the methods (xrtm_fd_interface.h:21-27). *)
Definition option_names : list (string * Z) :=
  [("calc_derivs", Z.of_N OPT_CALC_DERIVS); ("reverse_derivs", Z.of_N OPT_REVERSE_DERIVS); ("delta_m", Z.of_N OPT_DELTA_M);
   ("n_t_tms", Z.of_N OPT_N_T_TMS); ("four_conv_old", Z.of_N OPT_FOUR_CONV_OLD); ("four_conv_new", Z.of_N OPT_FOUR_CONV_NEW);
   ("no_azimuthal", Z.of_N OPT_NO_AZIMUTHAL); ("output_at_levels", Z.of_N OPT_OUTPUT_AT_LEVELS);
   ("output_at_taus", Z.of_N OPT_OUTPUT_AT_TAUS); ("part_sol_classical", Z.of_N OPT_PART_SOL_CLASSICAL);
   ("part_sol_greens", Z.of_N OPT_PART_SOL_GREENS); ("phase_scalar", Z.of_N OPT_PHASE_SCALAR);
   ("phase_matrix_gc", Z.of_N OPT_PHASE_MATRIX_GC); ("phase_matrix_lc", Z.of_N OPT_PHASE_MATRIX_LC); ("psa", Z.of_N OPT_PSA);
   ("quad_norm_gaus_leg", Z.of_N OPT_QUAD_NORM_GAUS_LEG); ("quad_doub_gaus_leg", Z.of_N OPT_QUAD_DOUB_GAUS_LEG);
   ("quad_lobatto", Z.of_N OPT_QUAD_LOBATTO); ("save_leg_polys", Z.of_N OPT_SAVE_LEG_POLYS);
   ("save_phase_mats", Z.of_N OPT_SAVE_PHASE_MATS); ("save_local_r_t", Z.of_N OPT_SAVE_LOCAL_R_T);
   ("save_layer_r_t_s", Z.of_N OPT_SAVE_LAYER_R_T_S); ("save_total_r_t_s", Z.of_N OPT_SAVE_TOTAL_R_T_S);
   ("sfi", Z.of_N OPT_SFI); ("source_solar", Z.of_N OPT_SOURCE_SOLAR); ("source_thermal", Z.of_N OPT_SOURCE_THERMAL);
   ("stack_reuse_adding", Z.of_N OPT_STACK_REUSE_ADDING); ("top_down_adding", Z.of_N OPT_TOP_DOWN_ADDING);
   ("bottom_up_adding", Z.of_N OPT_BOTTOM_UP_ADDING); ("upwelling_output", Z.of_N OPT_UPWELLING_OUTPUT);
   ("downwelling_output", Z.of_N OPT_DOWNWELLING_OUTPUT); ("vector", Z.of_N OPT_VECTOR)]%string.
Definition solver_names : list (string * Z) :=
  [("doub_add", Z.of_N SOLVER_DOUB_ADD); ("eig_add", Z.of_N SOLVER_EIG_ADD); ("eig_bvp", Z.of_N SOLVER_EIG_BVP);
   ("four_stream", Z.of_N SOLVER_FOUR_STREAM); ("mem_bvp", Z.of_N SOLVER_MEM_BVP); ("pade_add", Z.of_N SOLVER_PADE_ADD);
   ("single", Z.of_N SOLVER_SINGLE); ("six_stream", Z.of_N SOLVER_SIX_STREAM); ("sos", Z.of_N SOLVER_SOS);
   ("two_os", Z.of_N SOLVER_TWO_OS); ("two_stream", Z.of_N SOLVER_TWO_STREAM)]%string.
Definition output_names : list (string * Z) :=
  [("radiance", 1); ("radiance_mean", 2); ("flux", 4); ("flux_divergence", 8)]%string.
Definition kernel_names : list (string * Z) :=
  [("lambertian", 0); ("direct_and_diffuse", 1); ("roujean", 2); ("li_sparse", 3); ("li_dense", 4); ("ross_thin", 5);
   ("ross_thick", 6); ("hapke", 7); ("rahman", 8); ("cox_munk", 9); ("user_defined", 10)]%string.
Definition method_names : list (string * Z) :=
  [("forward", 0); ("backward", 1); ("central", 2)]%string.
(** Every documented name stands for its constant and the other way round, and there are no other names. *)
Theorem C25_names_mean_the_constants : forall t l,
  In (t, l) [(option_table, option_names); (solver_table, solver_names); (output_table, output_names); (kernel_table, kernel_names); (fd_table, method_names)] ->
  (forall s v, In (s, v) l -> name_to_value t s = Ok v /\ value_to_name t v = Ok (Some s)) /\
  (forall s, In s (t_names t) -> exists v, In (s, v) l).
Proof.
  intros t l I. split.
  - intros s v H.
    assert (forallb (fun p => match name_to_value t (fst p), value_to_name t (snd p) with
      | Ok v, Ok (Some s) => (v =? snd p) && String.eqb s (fst p) | _, _ => false end) l = true) as F
      by (repeat (destruct I as [E|I]; [injection E as <- <-; vm_compute; reflexivity|]); destruct I).
    rewrite forallb_forall in F. specialize (F _ H). cbn [fst snd] in F.
    destruct (name_to_value t s) as [v'|c|]; try discriminate F. destruct (value_to_name t v) as [[s'|]|c|]; try discriminate F.
    apply andb_prop in F as [F1 F2]. apply Z.eqb_eq in F1. apply String.eqb_eq in F2. now subst.
  - intros s H.
    assert (forallb (fun s => existsb (fun p => String.eqb s (fst p)) l) (t_names t) = true) as F
      by (repeat (destruct I as [E|I]; [injection E as <- <-; vm_compute; reflexivity|]); destruct I).
    rewrite forallb_forall in F. specialize (F _ H). apply existsb_exists in F as ((s' & v) & P & E). apply String.eqb_eq in E. cbn in E. subst s'. now exists v.
Qed.

(** The list of set bits of a mask: the first [length] of them in increasing order, never more
    than the array holds (if it holds anything). *)
Theorem C25_index_list : forall t mask length, In t mask_tables -> 1 <= length ->
  mask_to_index_list t mask length = Ok (firstn (Z.to_nat length) (set_bits mask (Z.to_nat (t_n t)))) /\
  mask_to_value_list t mask length = Ok (firstn (Z.to_nat length) (map (fun i => 2 ^ i) (set_bits mask (Z.to_nat (t_n t))))).
Proof.
  intros t mask length I L. destruct (mask_bits t I) as (W & Tn & Tv & N). unfold mask_to_index_list, mask_to_value_list.
  rewrite (wf_values t W), Z.ltb_irrefl. rewrite Tv, firstn_all2 by (unfold bits; rewrite map_length, seq_length; lia).
  change (bits (Z.to_nat (t_n t))) with (bits_from 0 (Z.to_nat (t_n t))). change 0 with (Z.of_nat 0).
  rewrite !mask_list_ok by (cbn; lia). cbn [List.length app]. rewrite !Nat.sub_0_r. unfold picks. fold (set_bits mask (Z.to_nat (t_n t))). rewrite map_id. auto.
Qed.
(** An array of length zero is written to. *)
Theorem C25_empty_index_list_refuted : mask_to_index_list solver_table 1 0 = UB /\ mask_to_value_list solver_table 1 0 = UB.
Proof. split; reflexivity. Qed.
(** Taking a mask apart and putting it together again. *)
Theorem C25_value_list_round_trip : forall t mask vs, In t mask_tables -> 0 <= mask < 2 ^ t_n t ->
  mask_to_value_list t mask (t_n t) = Ok vs -> value_list_to_mask vs = mask.
Proof.
  intros t mask vs I M E. destruct (mask_bits t I) as (W & Tn & Tv & N).
  assert (1 <= t_n t) as P by (repeat (destruct I as [<-|I]; [cbn; lia|]); destruct I).
  destruct (C25_index_list t mask (t_n t) I P) as [_ F]. rewrite F in E. injection E as <-.
  rewrite firstn_all2.
  - unfold value_list_to_mask. rewrite enum_fold, bits_recombine by (rewrite Z2Nat.id by lia; auto). apply enum_small.
    assert (2 ^ t_n t <= 2 ^ 32) by (apply Z.pow_le_mono_r; lia). lia.
  - rewrite map_length. unfold set_bits. rewrite <- (seq_length (Z.to_nat (t_n t)) 0) at 2. rewrite <- (map_length Z.of_nat). generalize (map Z.of_nat (seq 0 (Z.to_nat (t_n t)))). clear.
    induction l as [|a l IH]; cbn; [lia|]. destruct (Z.testbit mask a); cbn; lia.
Qed.

(** The text written for a mask is the names of its bits joined by commas, provided the buffer has
    room for it and the null; otherwise bytes outside the buffer are written. *)
Definition names_of (t : table) (mask : Z) : list string :=
  map (fun i => nth (Z.to_nat i) (t_names t) EmptyString) (set_bits mask (Z.to_nat (t_n t))).
Theorem C25_name_list_text : forall t mask length b, In t mask_tables -> length < 2 ^ 31 ->
  let s := String.concat "," (names_of t mask) in
  (Z.of_nat (String.length s) < length -> exists b', mask_to_name_list t mask length b = Ok b' /\ holds b' b s) /\
  (length <= Z.of_nat (String.length s) -> mask_to_name_list t mask length b = UB).
Proof.
  intros t mask length b I L s. destruct (mask_bits t I) as (W & Tn & Tv & N). unfold mask_to_name_list.
  rewrite (wf_values t W), (wf_names t W), Z.ltb_irrefl. cbn [orb].
  assert (List.length (t_names t) = Z.to_nat (t_n t)) as LN by (symmetry; now apply n_names).
  rewrite firstn_all2 by (rewrite combine_length, LN; lia). rewrite Tv. change (bits (Z.to_nat (t_n t))) with (bits_from 0 (Z.to_nat (t_n t))).
  assert (chosen mask (combine (bits_from 0 (Z.to_nat (t_n t))) (t_names t)) = names_of t mask) as CH.
  { rewrite chosen_bits by exact LN. unfold names_of, set_bits. apply map_ext. intros. now rewrite Nat.sub_0_r. }
  split.
  - intros R. destruct (name_list_ok mask length (combine (bits_from 0 (Z.to_nat (t_n t))) (t_names t)) b b EmptyString false) as (b' & E & S).
    + lia.
    + split; [intros k c K; destruct k; discriminate|auto].
    + rewrite CH. cbn [String.length tail_text]. fold s. lia.
    + rewrite CH in E, S. cbn [append String.length Z.of_nat tail_text] in E, S. fold s in E, S. rewrite E. unfold put.
      destruct (Z.ltb_spec (Z.of_nat (String.length s)) 0), (Z.leb_spec length (Z.of_nat (String.length s))); try lia. cbn [orb].
      eexists. split; [reflexivity|]. destruct S as [A B]. split; [|split].
      * intros k c K. assert (G := get_len _ _ _ K). destruct (Z.eqb_spec (Z.of_nat k) (Z.of_nat (String.length s))); [lia|]. now apply A.
      * now rewrite Z.eqb_refl.
      * intros k K. destruct (Z.eqb_spec k (Z.of_nat (String.length s))); [lia|]. now apply B.
  - intros R. destruct (name_list_len mask length (combine (bits_from 0 (Z.to_nat (t_n t))) (t_names t)) 0 false b) as [->|[b' ->]]; [reflexivity|].
    rewrite CH. cbn [tail_text]. fold s. unfold put. destruct (Z.leb_spec length (0 + Z.of_nat (String.length s))); [|lia]. now rewrite orb_true_r.
Qed.

(** Names of the tables are single words. *)
Lemma names_words : forall t x, In t mask_tables -> In x (t_names t) -> word x.
Proof.
  intros t x I X.
  assert (forallb (fun x => negb (String.eqb x "") && forallb (fun c => negb (delim c)) (chars x)) (t_names t) = true) as F
    by (repeat (destruct I as [<-|I]; [vm_compute; reflexivity|]); destruct I).
  rewrite forallb_forall in F. specialize (F x X). apply andb_prop in F as [A B]. split.
  - apply negb_true_iff, String.eqb_neq in A. exact A.
  - intros c C. rewrite forallb_forall in B. specialize (B c C). apply negb_true_iff in B. now apply delim_false.
Qed.
Lemma names_index : forall t x, wf t -> In x (t_names t) -> exists k, nth_error (t_names t) k = Some x /\ find_index (fun y => String.eqb x y) (t_names t) = Some k.
Proof.
  intros t x W X. apply In_nth_error in X as (k & K). exists k. split; auto.
  apply (find_some _ _ _ k x); [apply W|auto|]. intros y. rewrite String.eqb_eq. split; auto.
Qed.
Lemma vector_31 : forall t k x, In t mask_tables -> nth_error (t_names t) k = Some x -> x <> "vector"%string -> (k < 31)%nat.
Proof.
  intros t k x I K V. destruct (Nat.lt_ge_cases k 31) as [|G]; auto. exfalso.
  repeat (destruct I as [<-|I]; [|]); try contradiction.
  - destruct (Nat.eq_dec k 31) as [->|]; [injection K as <-; congruence|].
    assert (nth_error (t_names option_table) k = None) by (apply nth_error_None; cbn; lia). congruence.
  - assert (nth_error (t_names solver_table) k = None) by (apply nth_error_None; cbn; lia). congruence.
  - assert (nth_error (t_names output_table) k = None) by (apply nth_error_None; cbn; lia). congruence.
Qed.
Lemma vector_find : forall t, In t mask_tables -> match find_index (fun y => String.eqb "vector" y) (t_names t) with Some k => (31 <= k)%nat | None => True end.
Proof. intros t I. repeat (destruct I as [<-|I]; [vm_compute; auto|]). destruct I. Qed.

(** Parsing a list of names, whatever separators are used: the mask has exactly the bits of the
    names listed; an unknown name, or "vector", makes the call fail. *)
Theorem C25_list_parsed : forall t s xs, In t mask_tables -> lists s xs ->
  ((forall x, In x xs -> In x (t_names t) /\ x <> "vector"%string) ->
     exists m, name_list_to_mask t s = Ok m /\ 0 <= m < 2 ^ 31 /\
       forall k, 0 <= k -> (Z.testbit m k = true <-> exists x, nth_error (t_names t) (Z.to_nat k) = Some x /\ In x xs)) /\
  ((exists x, In x xs /\ (~ In x (t_names t) \/ x = "vector"%string)) -> name_list_to_mask t s = Ok (2 ^ 32 - 1)).
Proof.
  intros t s xs I L. assert (B := mask_bits t I). assert (W := good_wf t (mask_good t I)). unfold name_list_to_mask. rewrite (strtok_lists s xs L). split.
  - intros H. destruct (parse_all t _ xs 0 B) as (m & P & R & T); [lia| |].
    + intros x X. destruct (H x X) as [M V]. destruct (names_index t x W M) as (k & K & F). exists k. split; auto. eapply vector_31; eauto.
    + rewrite P. exists m. split; [now rewrite enum_small by lia|]. split; [exact R|]. intros k K. rewrite T, Z.bits_0 by auto. cbn [orb].
      rewrite existsb_exists. split.
      * intros (x & X & E). destruct (H x X) as [M _]. destruct (names_index t x W M) as (j & J & F). rewrite F in E. apply Z.eqb_eq in E. subst k.
        exists x. now rewrite Nat2Z.id.
      * intros (x & X & Y). exists x. split; auto. destruct (H x Y) as [M _]. destruct (names_index t x W M) as (j & J & F). rewrite F.
        apply Z.eqb_eq. assert (find_index (fun y => String.eqb x y) (t_names t) = Some (Z.to_nat k)) as F2.
        { apply (find_some _ _ _ _ x); [apply W|auto|]. intros y. rewrite String.eqb_eq. split; auto. }
        rewrite F in F2. injection F2 as ->. lia.
  - intros (x & X & Y). rewrite (parse_bad t _ xs 0 B); [reflexivity|]. exists x. split; auto. destruct Y as [Y| ->].
    + rewrite find_none; auto. intros y J. apply String.eqb_neq. congruence.
    + now apply vector_find.
Qed.
(** Every text lists some words, so the theorem above covers every input. *)
Theorem C25_every_text_lists : forall s, exists xs, lists s xs.
Proof. exact every_text_lists. Qed.

(** The text written for a mask is read back as that mask, except when the mask has the
    "vector" bit: then the reader refuses the text (and its error value has every bit set). *)
Theorem C25_name_list_round_trip : forall t mask length b, In t mask_tables -> 0 <= mask < 2 ^ t_n t -> length < 2 ^ 31 ->
  let s := String.concat "," (names_of t mask) in Z.of_nat (String.length s) < length ->
  exists b', mask_to_name_list t mask length b = Ok b' /\ holds b' b s /\
    name_list_to_mask t s = Ok (if Z.testbit mask 31 then 2 ^ 32 - 1 else mask).
Proof.
  intros t mask length b I M L s R. destruct (C25_name_list_text t mask length b I L) as [A _]. destruct (A R) as (b' & E & H).
  exists b'. split; [exact E|]. split; [exact H|]. clear A E H.
  assert (W := good_wf t (mask_good t I)). destruct (mask_bits t I) as (_ & Tn & _ & N32).
  assert (forall i, In i (set_bits mask (Z.to_nat (t_n t))) -> nth_error (t_names t) (Z.to_nat i) = Some (nth (Z.to_nat i) (t_names t) EmptyString)) as AT.
  { intros i J. apply set_bits_in in J as [J _]. apply nth_error_nth'. rewrite <- (n_names t W). lia. }
  assert (forall x, In x (names_of t mask) -> In x (t_names t)) as MEM.
  { intros x X. apply in_map_iff in X as (i & <- & J). eapply nth_error_In. apply AT, J. }
  assert (lists s (names_of t mask)) as LS by (apply lists_concat; intros; eapply names_words; eauto).
  destruct (C25_list_parsed t s _ I LS) as [P Q]. destruct (Z.testbit mask 31) eqn:T31.
  - apply Q. assert (31 < t_n t) as NT.
    { destruct (Z.lt_ge_cases 31 (t_n t)) as [|G]; auto. exfalso. rewrite (high_bits mask (t_n t) 31) in T31 by lia. discriminate. }
    assert (t = option_table) as -> by (repeat (destruct I as [<-|I]; [try reflexivity; cbn in NT; lia|]); destruct I).
    exists "vector"%string. split; auto. apply in_map_iff. exists 31. split; [reflexivity|]. apply set_bits_in. cbn. split; [lia|auto].
  - destruct P as (m & Pm & R1 & T).
    { intros x X. split; [now apply MEM|]. intros ->. apply in_map_iff in X as (i & X & J). assert (AJ := AT i J). rewrite X in AJ.
      apply set_bits_in in J as [J TJ]. assert (i = 31); [|subst; congruence].
      assert (VF := vector_find t I). rewrite (find_some _ (fun y => String.eqb "vector" y) _ (Z.to_nat i) "vector"%string) in VF.
      - lia.
      - apply W.
      - exact AJ.
      - intros y. rewrite String.eqb_eq. split; auto. }
    rewrite Pm. f_equal. apply Z.bits_inj'. intros k K. destruct (Z.testbit mask k) eqn:TK.
    + apply T; auto. assert (In k (set_bits mask (Z.to_nat (t_n t)))) as J.
      { apply set_bits_in. split; auto. split; auto. destruct (Z.lt_ge_cases k (t_n t)); [lia|]. rewrite (high_bits mask (t_n t)) in TK by lia. discriminate. }
      exists (nth (Z.to_nat k) (t_names t) EmptyString). split; [apply AT, J|]. apply in_map_iff. exists k. auto.
    + destruct (Z.testbit m k) eqn:TM; [|reflexivity]. apply T in TM as (x & X & Y); auto. apply in_map_iff in Y as (i & Y & J).
      assert (AJ := AT i J). rewrite Y in AJ. apply set_bits_in in J as [J TJ].
      assert (Z.to_nat i = Z.to_nat k) as E.
      { apply (proj1 (NoDup_nth_error (t_names t)) (wf_nd t W)); [|congruence]. apply nth_error_Some. congruence. }
      assert (i = k) by lia. subst. congruence.
Qed.

(** The longest name. *)
Theorem C25_max_name_length : forall t, In t good_tables -> exists m, max_name_length t = Ok m /\
  (forall s, In s (t_names t) -> Z.of_nat (String.length s) <= m) /\ exists s, In s (t_names t) /\ Z.of_nat (String.length s) = m.
Proof.
  intros t I. assert (W := good_wf t I). unfold max_name_length. rewrite (wf_names t W), Z.ltb_irrefl. eexists. split; [reflexivity|].
  rewrite firstn_all2 by (rewrite <- (n_names t W); lia).
  assert (forall l m, 0 <= m -> m <= max_len l m /\ (forall s, In s l -> Z.of_nat (String.length s) <= max_len l m) /\ (max_len l m = m \/ exists s, In s l /\ Z.of_nat (String.length s) = max_len l m)) as K.
  { induction l as [|x l IH]; intros m M; cbn [max_len]; [repeat split; auto; try lia; intros; contradiction|].
    destruct (IH (if m <? Z.of_nat (String.length x) then Z.of_nat (String.length x) else m)) as (A & B & C); [destruct (Z.ltb_spec m (Z.of_nat (String.length x))); lia|].
    destruct (Z.ltb_spec m (Z.of_nat (String.length x))).
    - repeat split; [lia| |].
      + intros s [<-|S]; auto.
      + right. destruct C as [C|(s & S & C)]; [exists x; split; [left; auto|auto]|exists s; split; [right; auto|auto]].
    - repeat split; [lia| |].
      + intros s [<-|S]; [lia|auto].
      + destruct C as [C|(s & S & C)]; [left; auto|right; exists s; split; [right; auto|auto]]. }
  destruct (K (t_names t) 0 ltac:(lia)) as (A & B & C). split; auto. destruct C as [C|C]; auto.
  exfalso. assert (exists s, In s (t_names t) /\ 0 < Z.of_nat (String.length s)) as (s & S & P).
  { clear -I. repeat (destruct I as [<-|I]; [eexists; split; [left; reflexivity|cbn; lia]|]). destruct I. }
  specialize (B s S). lia.
Qed.

(** The table of input names, used in error messages, is out of step with the enumeration: the
    last member is read from behind the table, the one before is two names run together, and the
    value found for a name is not the value whose name it is. *)
Theorem C25_input_names_refuted :
  index_to_name input_table INPUT_KERNEL_FUNCS = UB /\
  index_to_name input_table INPUT_KERNEL_PARAMS_L = Ok (Some "kernel_params_lkernel_funcs"%string) /\
  name_to_value input_table "doub_d_tau" = Ok 2 /\ index_to_name input_table 1 = Ok (Some "doub_d_tau"%string).
Proof. repeat split; reflexivity. Qed.
(** All other inputs are named correctly in messages. *)
Theorem C25_input_messages : forall i s, 1 <= i <= 32 -> nth_error (t_names input_table) (Z.to_nat i) = Some s -> index_to_name input_table i = Ok (Some s).
Proof.
  intros i s R E. unfold index_to_name. destruct (Z.ltb_spec i 0); [lia|]. destruct (Z.leb_spec (t_n input_table) i); [cbn in *; lia|]. cbn [orb].
  assert (K := aref_ok _ _ _ _ E). rewrite Z2Nat.id in K by lia. now rewrite K.
Qed.
(** The eigenvalue solver names fit the enumeration exactly when both optional back ends are
    compiled in. *)
Theorem C25_eigen_solver_names : forall f e,
  (index_to_name (eigen_table f e) (EIGEN_LAPACK f e) = Ok (Some "lapack"%string) <-> f = true /\ e = true) /\
  (name_to_value (eigen_table f e) "lapack" = Ok (EIGEN_LAPACK f e) <-> f = true /\ e = true).
Proof. intros [] []; vm_compute; intuition discriminate. Qed.

(** Non-trivial cases. *)
Example C25_some_list : lists " eig_add,, sos" ["eig_add"; "sos"]%string.
Proof.
  apply L_sep; [right; left; reflexivity|]. change "eig_add,, sos"%string with ("eig_add" ++ String "," ", sos")%string.
  apply L_cons; [|left; reflexivity|].
  - split; [discriminate|]. intros c C S. destruct S as [->|[->| ->]]; cbn in C; intuition discriminate.
  - apply L_sep; [left; reflexivity|]. apply L_sep; [right; left; reflexivity|]. apply L_last. split; [discriminate|].
    intros c C S. destruct S as [->|[->| ->]]; cbn in C; intuition discriminate.
Qed.
Example C25_parse_solvers : name_list_to_mask solver_table " eig_add,, sos" = Ok 258.
Proof. reflexivity. Qed.
Example C25_parse_vector : name_list_to_mask option_table "calc_derivs,vector" = Ok (2 ^ 32 - 1).
Proof. reflexivity. Qed.
Example C25_text_of_mask : String.concat "," (names_of solver_table 258) = "eig_add,sos"%string.
Proof. reflexivity. Qed.

Print Assumptions C25_names_round_trip.
Print Assumptions C25_names_mean_the_constants.
Print Assumptions C25_index_list.
Print Assumptions C25_empty_index_list_refuted.
Print Assumptions C25_value_list_round_trip.
Print Assumptions C25_name_list_text.
Print Assumptions C25_list_parsed.
Print Assumptions C25_every_text_lists.
Print Assumptions C25_name_list_round_trip.
Print Assumptions C25_max_name_length.
Print Assumptions C25_input_names_refuted.
Print Assumptions C25_input_messages.
Print Assumptions C25_eigen_solver_names.
