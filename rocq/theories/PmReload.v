(** Loading a printed table gives the same counts; phrase probabilities. *)
From Coq Require Import Ascii String Arith ZArith NArith QArith Qreals Reals List Bool Lia Lra Permutation.
From Verif Require Import TextSpec TextModel TextProofs AMap VocabSpec VocabModel VocabProofs CodecModel PtSpec PtModel PtProofs PmSpec PmModel PmProofs PmText PmPrint.
Import ListNotations.
Open Scope Z_scope.
Lemma sadd_t : forall lines k t, k_t (fold_left sop_effect (map line_sop lines) k) t = k_t k t + sumof (fun l => if sphrase_dec t (l_t l) then l_cst l else 0) lines.
Proof.
  induction lines as [|l lines IH]; intros k t; [unfold sumof; cbn; lia|]. cbn [map fold_left]. rewrite IH. unfold line_sop at 1. cbn [sop_effect k_t].
  change (sumof (fun x => if sphrase_dec t (l_t x) then l_cst x else 0) (l :: lines)) with ((if sphrase_dec t (l_t l) then l_cst l else 0) + sumof (fun x => if sphrase_dec t (l_t x) then l_cst x else 0) lines).
  unfold sset. destruct (sphrase_dec t (l_t l)) as [->|]; lia.
Qed.
Definition lpair (l : tline) := (l_s l, l_t l).
Lemma sadd_st_absent : forall lines k s t, ~ In (s, t) (map lpair lines) -> k_st (fold_left sop_effect (map line_sop lines) k) s t = k_st k s t.
Proof.
  induction lines as [|l lines IH]; intros k s t N; [reflexivity|]. cbn [map fold_left] in *. rewrite IH by (intros Q; apply N; now right). unfold line_sop. cbn [sop_effect k_st]. unfold sset2.
  destruct (sphrase_dec s (l_s l)) as [->|]; [|reflexivity]. destruct (sphrase_dec t (l_t l)) as [->|]; [|reflexivity]. exfalso. apply N. now left.
Qed.
Lemma sadd_st : forall lines k l, NoDup (map lpair lines) -> In l lines -> k_st (fold_left sop_effect (map line_sop lines) k) (l_s l) (l_t l) = l_cst l.
Proof.
  induction lines as [|x lines IH]; intros k l ND I; [destruct I|]. cbn [map fold_left] in *. apply NoDup_cons_iff in ND. destruct ND as [Nx ND]. destruct I as [->|I]; [|now apply IH].
  rewrite sadd_st_absent by exact Nx. unfold line_sop. cbn [sop_effect k_st]. unfold sset2. destruct (sphrase_dec _ _); [|contradiction]. destruct (sphrase_dec _ _); [reflexivity|contradiction].
Qed.
Lemma sadd_s : forall lines k s f, (forall l, In l lines -> l_s l = s -> l_cs l = f) ->
  k_s (fold_left sop_effect (map line_sop lines) k) s = if in_dec sphrase_dec s (map l_s lines) then f else k_s k s.
Proof.
  induction lines as [|l lines IH]; intros k s f H; [reflexivity|]. cbn [map fold_left]. rewrite (IH _ s f) by (intros; apply H; auto; now right). unfold line_sop. cbn [sop_effect k_s]. unfold sset.
  destruct (in_dec sphrase_dec s (map l_s lines)) as [I|I].
  - destruct (in_dec sphrase_dec s (l_s l :: map l_s lines)) as [J|J]; [reflexivity|]. exfalso. apply J. now right.
  - destruct (sphrase_dec s (l_s l)) as [E|E]; destruct (in_dec sphrase_dec s (l_s l :: map l_s lines)) as [J|J]; auto.
    + apply H; [now left|auto]. + exfalso. apply J. now left. + exfalso. destruct J; [congruence|contradiction].
Qed.
Lemma sumof_filter : forall A (p : A -> bool) (f : A -> Z) l, sumof (fun x => if p x then f x else 0) l = sumof f (filter p l).
Proof. intros A p f l. unfold sumof. induction l as [|x l IH]; [reflexivity|]. cbn [map fold_right filter]. rewrite IH. destruct (p x); reflexivity. Qed.
Lemma sumof_map : forall A B (g : A -> B) (f : B -> Z) l, sumof f (map g l) = sumof (fun x => f (g x)) l.
Proof. intros. unfold sumof. now rewrite map_map. Qed.
(** the counts of the loaded lines are the counts of the history *)
Lemma reload_counts : forall h lines, trained h -> NoDup (map lpair lines) -> (forall l, In l lines <-> exists o, In o h /\ l = pair_line h (sop_s o) (sop_t o)) ->
  (forall s t, k_st (scounts_after (map line_sop lines)) s t = k_st (scounts_after h) s t) /\ (forall s, k_s (scounts_after (map line_sop lines)) s = k_s (scounts_after h) s) /\
  (forall t, k_t (scounts_after (map line_sop lines)) t = k_t (scounts_after h) t).
Proof.
  intros h lines TR ND IN. unfold scounts_after at 1 3 5. destruct (scounts_absent h scounts0) as (A1 & A2 & A3). fold (scounts_after h) in A1, A2, A3.
  assert (ST : forall s t, k_st (fold_left sop_effect (map line_sop lines) scounts0) s t = k_st (scounts_after h) s t).
  { intros s t. destruct (Z.eq_dec (k_st (scounts_after h) s t) 0) as [E|E].
    - rewrite E, sadd_st_absent; [reflexivity|]. intros Q. apply in_map_iff in Q. destruct Q as [l [El Hl]]. apply IN in Hl. destruct Hl as (o & Ho & ->). unfold lpair in El. cbn in El. injection El as <- <-. pose proof (k_seen h TR o Ho) as (_ & _ & P). lia.
    - destruct (k_seen_inv h TR s t E) as (o & Ho & <- & <-). apply (sadd_st lines scounts0 (pair_line h (sop_s o) (sop_t o)) ND). apply IN. eauto. }
  split; [exact ST|]. split.
  - intros s. rewrite (sadd_s lines scounts0 s (k_s (scounts_after h) s)).
    + destruct (in_dec sphrase_dec s (map l_s lines)) as [I|I]; [reflexivity|]. symmetry. apply A1. intros Q. apply I. apply in_map_iff in Q. destruct Q as [o [<- Ho]]. apply in_map_iff. exists (pair_line h (sop_s o) (sop_t o)). split; [reflexivity|]. apply IN. eauto.
    + intros l Hl <-. apply IN in Hl. destruct Hl as (o & _ & ->). reflexivity.
  - intros t. rewrite sadd_t. cbn [k_t scounts0]. rewrite Z.add_0_l.
    rewrite (sumof_ext _ _ (fun l => if is_phrase t (l_t l) then l_cst l else 0)) by (intros x _; unfold is_phrase; destruct (sphrase_dec _ _); reflexivity). rewrite sumof_filter.
    rewrite (marg_t h TR t (map l_s (filter (fun l => is_phrase t (l_t l)) lines))).
    + rewrite sumof_map. apply sumof_ext. intros l Hl. apply filter_In in Hl. destruct Hl as [Hl P]. unfold is_phrase in P. destruct (sphrase_dec t (l_t l)) as [->|]; [|discriminate]. apply IN in Hl. destruct Hl as (o & _ & ->). reflexivity.
    + clear - ND. induction lines as [|l lines IH]; [constructor|]. cbn [map] in ND. apply NoDup_cons_iff in ND. destruct ND as [N ND]. cbn [filter]. unfold is_phrase at 1. destruct (sphrase_dec t (l_t l)) as [E|]; [|now apply IH]. cbn [map]. constructor; [|now apply IH].
      intros Q. apply N. apply in_map_iff in Q. destruct Q as [x [Ex Hx]]. apply filter_In in Hx. destruct Hx as [Hx P]. unfold is_phrase in P. destruct (sphrase_dec t (l_t x)) as [E'|]; [|discriminate]. apply in_map_iff. exists x. split; [unfold lpair; congruence|exact Hx].
    + intros o Ho Eo. apply in_map_iff. exists (pair_line h (sop_s o) (sop_t o)). split; [reflexivity|]. apply filter_In. split; [apply IN; eauto|]. cbn [pair_line l_t]. unfold is_phrase. destruct (sphrase_dec t (sop_t o)); [reflexivity|congruence].
Qed.
Definition file_op (o : sop) : Prop := Forall file_word (sop_s o) /\ Forall file_word (sop_t o) /\ sop_s o <> [] /\ sop_t o <> [].
Theorem print_reload : forall h, trained h -> h <> [] -> Forall usable_op h -> Forall file_op h -> fits_index h ->
  forall es, Permutation es (p_tab (pm_run h pm_clear)) -> exists lines, printTTable (pm_run h pm_clear) es = Some lines /\
  forall lines', Permutation lines lines' -> exists m', loadPlainTextTTable (ttable_file lines') pm_clear = Some m' /\
  forall hs ht, usable hs -> usable ht -> ht <> [] ->
    cHSrcHTrg hs ht m' = cHSrcHTrg hs ht (pm_run h pm_clear) /\ cHSrc hs m' = cHSrc hs (pm_run h pm_clear) /\ cHTrg ht m' = cHTrg ht (pm_run h pm_clear).
Proof.
  intros h TR NE US FO FI es PE. destruct (print_lines h TR US FI NE es PE) as (lines & E & ND & IN). exists lines. split; [exact E|]. intros lines' PL.
  assert (ND' : NoDup (map lpair lines')) by (eapply Permutation_NoDup; [apply Permutation_map, PL|exact ND]).
  assert (IN' : forall l, In l lines' <-> exists o, In o h /\ l = pair_line h (sop_s o) (sop_t o)).
  { intros l. rewrite <- IN. split; apply Permutation_in; [now apply Permutation_sym|exact PL]. }
  rewrite Forall_forall in US, FO.
  assert (FL : Forall file_line lines'). { apply Forall_forall. intros l Hl. apply IN' in Hl. destruct Hl as (o & Ho & ->). exact (FO o Ho). }
  exists (pm_run (map line_sop lines') pm_clear). split; [now apply load_file_ok|]. intros hs ht Us Ut Ne.
  assert (SUB : forall o', In o' (map line_sop lines') -> exists o, In o h /\ sop_s o' = sop_s o /\ sop_t o' = sop_t o).
  { intros o' Ho'. apply in_map_iff in Ho'. destruct Ho' as [l [<- Hl]]. apply IN' in Hl. destruct Hl as (o & Ho & ->). exists o. auto. }
  assert (US' : Forall usable_op (map line_sop lines')). { apply Forall_forall. intros o' Ho'. destruct (SUB o' Ho') as (o & Ho & Es & Et). unfold usable_op. rewrite Es, Et. now apply US. }
  assert (FI' : fits_index (map line_sop lines')).
  { destruct FI as [B1 B2]. split; [eapply N.le_trans; [|exact B1]|eapply N.le_trans; [|exact B2]].
    - assert (X : incl (s_words (map line_sop lines')) (s_words h)). { intros w Hw. apply in_flat_map in Hw. destruct Hw as [o' [Ho' Hw]]. destruct (SUB o' Ho') as (o & Ho & Es & _). apply in_flat_map. exists o. rewrite <- Es. auto. } apply names_length_mono in X. lia.
    - assert (X : incl (t_words (map line_sop lines')) (t_words h)). { intros w Hw. apply in_flat_map in Hw. destruct Hw as [o' [Ho' Hw]]. destruct (SUB o' Ho') as (o & Ho & _ & Et). apply in_flat_map. exists o. rewrite <- Et. auto. } apply names_length_mono in X. lia. }
  rewrite <- Forall_forall in US. destruct (pm_counts (map line_sop lines') hs ht US' FI' Us Ut Ne) as (C1 & C2 & C3). destruct (pm_counts h hs ht US FI Us Ut Ne) as (D1 & D2 & D3).
  destruct (reload_counts h lines' TR ND' IN') as (R1 & R2 & R3). rewrite C1, C2, C3, D1, D2, D3. auto.
Qed.

(** ** probabilities *)
Local Notation R := Rdefinitions.R.
Open Scope R_scope.
Definition floor_val : R := / 10000000000.
Lemma smooth_val : Q2R PHRASE_PROB_SMOOTH = floor_val.
Proof. unfold Q2R, PHRASE_PROB_SMOOTH, floor_val. cbn. lra. Qed.
Lemma floor_lp_spec : forall x, 0 < x -> floor_lp (ln x) = ln (Rmax floor_val x).
Proof.
  intros x Hx. unfold floor_lp, LOG_PHRASE_PROB_SMOOTH. rewrite smooth_val. assert (P : 0 < floor_val) by (unfold floor_val; lra). destruct (Rlt_dec (ln x) (ln floor_val)) as [L|L].
  - apply ln_lt_inv in L; auto. rewrite Rmax_left by lra. reflexivity.
  - unfold Rmax. destruct (Rle_dec floor_val x) as [Q|Q]; [reflexivity|]. exfalso. apply L. apply ln_increasing; lra.
Qed.
Lemma ratio_R : forall a b, (0 < b)%Z -> Q2R (ratio a b) = IZR a / IZR b.
Proof.
  intros a b Hb. unfold ratio. rewrite Q2R_div; [|intros E; unfold Qeq in E; cbn in E; lia]. unfold inject_Z, Q2R. cbn. field. apply not_0_IZR. lia.
Qed.
Lemma pm_index : forall h hs ht s t, Forall usable_op h -> fits_index h -> usable hs -> usable ht -> ht <> [] ->
  known_indices hs (p_sv (pm_run h pm_clear)) = Some s -> known_indices ht (p_tv (pm_run h pm_clear)) = Some t ->
  hat_cSrcTrg s t (p_tab (pm_run h pm_clear)) = k_st (scounts_after h) hs ht /\ hat_cSrc s (p_tab (pm_run h pm_clear)) = k_s (scounts_after h) hs /\ hat_cTrg t (p_tab (pm_run h pm_clear)) = k_t (scounts_after h) ht.
Proof.
  intros h hs ht s t US FI Us Ut Ne Es Et. destruct (pm_counts h hs ht US FI Us Ut Ne) as (C1 & C2 & C3). unfold cHSrcHTrg, cHSrc, cHTrg in C1, C2, C3. rewrite Es in C1, C2. rewrite Et in C1, C3. auto.
Qed.
Theorem phrase_probs : forall h hs ht s t, trained h -> Forall usable_op h -> fits_index h -> usable hs -> usable ht -> ht <> [] ->
  known_indices hs (p_sv (pm_run h pm_clear)) = Some s -> known_indices ht (p_tv (pm_run h pm_clear)) = Some t ->
  let c := IZR (k_st (scounts_after h) hs ht) in
  (k_st (scounts_after h) hs ht = 0%Z -> exp (logpt_s_ s t (pm_run h pm_clear)) = floor_val /\ exp (logps_t_ s t (pm_run h pm_clear)) = floor_val) /\
  (k_st (scounts_after h) hs ht <> 0%Z -> 0 < c /\ exp (logpt_s_ s t (pm_run h pm_clear)) = Rmax floor_val (c / IZR (k_s (scounts_after h) hs)) /\
     exp (logps_t_ s t (pm_run h pm_clear)) = Rmax floor_val (c / IZR (k_t (scounts_after h) ht))).
Proof.
  intros h hs ht s t TR US FI Us Ut Ne Es Et c. destruct (pm_index h hs ht s t US FI Us Ut Ne Es Et) as (C1 & C2 & C3).
  assert (P : 0 < floor_val) by (unfold floor_val; lra). unfold logpt_s_, logps_t_, hat_pTrgGivenSrc, hat_pSrcGivenTrg. rewrite C1, C2, C3. split; intros Z0.
  - rewrite Z0. cbn [Z.ltb Z.compare]. rewrite smooth_val, floor_lp_spec by exact P. rewrite Rmax_left by lra. rewrite exp_ln by exact P. auto.
  - destruct (k_seen_inv h TR hs ht Z0) as (o & Ho & <- & <-). destruct (k_seen h TR o Ho) as (P1 & P2 & P3). apply Z.ltb_lt in P1, P2, P3. rewrite P1, P2, P3. apply Z.ltb_lt in P1, P2, P3.
    rewrite !ratio_R by assumption. fold c. apply IZR_lt in P1, P2, P3. fold c in P3. split; [exact P3|]. rewrite !floor_lp_spec by (apply Rdiv_lt_0_compat; assumption).
    rewrite !exp_ln by (eapply Rlt_le_trans; [exact P|apply Rmax_l]). auto.
Qed.
Definition sumR {A} (f : A -> R) (l : list A) : R := fold_right Rplus 0 (map f l).
Lemma sumR_Z : forall A (f : A -> Z) l, sumR (fun x => IZR (f x)) l = IZR (sumof f l).
Proof. intros A f l. unfold sumR, sumof. induction l as [|x l IH]; cbn; [reflexivity|]. rewrite IH, <- plus_IZR. reflexivity. Qed.
Lemma sumR_div : forall A (f : A -> R) d l, sumR (fun x => f x / d) l = sumR f l / d.
Proof. intros A f d l. unfold sumR. induction l as [|x l IH]; cbn; [unfold Rdiv; ring|]. rewrite IH. unfold Rdiv. ring. Qed.
Lemma sumR_ext : forall A (f g : A -> R) l, (forall x, In x l -> f x = g x) -> sumR f l = sumR g l.
Proof. intros A f g l H. unfold sumR. f_equal. apply map_ext_in. exact H. Qed.
(** the targets seen with s *)
Theorem probs_sum_trg : forall h hs s, trained h -> Forall usable_op h -> fits_index h -> usable hs -> In hs (map sop_s h) -> (k_s (scounts_after h) hs <= 10000000000)%Z ->
  known_indices hs (p_sv (pm_run h pm_clear)) = Some s ->
  forall L, NoDup (map fst L) -> (forall o, In o h -> sop_s o = hs -> In (sop_t o) (map fst L)) ->
  (forall ht t, In (ht, t) L -> known_indices ht (p_tv (pm_run h pm_clear)) = Some t /\ exists o, In o h /\ sop_s o = hs /\ sop_t o = ht) ->
  sumR (fun x => exp (logpt_s_ s (snd x) (pm_run h pm_clear))) L = 1.
Proof.
  intros h hs s TR US FI Us SEEN BIG Es L ND ALL ONLY. apply in_map_iff in SEEN. destruct SEEN as (o0 & <- & Ho0). destruct (k_seen h TR o0 Ho0) as (P1 & _ & _).
  assert (M : k_s (scounts_after h) (sop_s o0) = sumof (fun x : sphrase * phrase => k_st (scounts_after h) (sop_s o0) (fst x)) L).
  { rewrite (marg_s h TR (sop_s o0) (map fst L) ND ALL). apply sumof_map. }
  rewrite (sumR_ext _ _ (fun x => IZR (k_st (scounts_after h) (sop_s o0) (fst x)) / IZR (k_s (scounts_after h) (sop_s o0)))).
  - rewrite sumR_div, sumR_Z, <- M. field. apply not_0_IZR. lia.
  - intros [ht t] Hx. destruct (ONLY ht t Hx) as (Et & o & Ho & Eo & Eto). cbn [fst snd]. destruct (k_seen h TR o Ho) as (Q1 & Q2 & Q3). rewrite Forall_forall in US. destruct (US o Ho) as (_ & U2 & U3). rewrite <- Forall_forall in US.
    subst ht. destruct (phrase_probs h (sop_s o0) (sop_t o) s t TR US FI Us U2 U3 Es Et) as [_ F]. rewrite Eo in Q3. destruct F as (F1 & F2 & _); [lia|]. rewrite F2. apply Rmax_right.
    unfold floor_val. assert (1 <= IZR (k_st (scounts_after h) (sop_s o0) (sop_t o))) by (apply IZR_le; lia). apply IZR_le in BIG. apply IZR_lt in P1.
    apply Rmult_le_reg_r with (IZR (k_s (scounts_after h) (sop_s o0))); [exact P1|]. unfold Rdiv at 1. rewrite Rmult_assoc, Rinv_l, Rmult_1_r by lra. lra.
Qed.
Theorem probs_sum_src : forall h ht t, trained h -> Forall usable_op h -> fits_index h -> usable ht -> In ht (map sop_t h) -> (k_t (scounts_after h) ht <= 10000000000)%Z ->
  known_indices ht (p_tv (pm_run h pm_clear)) = Some t ->
  forall L, NoDup (map fst L) -> (forall o, In o h -> sop_t o = ht -> In (sop_s o) (map fst L)) ->
  (forall hs s, In (hs, s) L -> known_indices hs (p_sv (pm_run h pm_clear)) = Some s /\ exists o, In o h /\ sop_s o = hs /\ sop_t o = ht) ->
  sumR (fun x => exp (logps_t_ (snd x) t (pm_run h pm_clear))) L = 1.
Proof.
  intros h ht t TR US FI Us SEEN BIG Et L ND ALL ONLY. apply in_map_iff in SEEN. destruct SEEN as (o0 & <- & Ho0). destruct (k_seen h TR o0 Ho0) as (_ & P1 & _).
  assert (M : k_t (scounts_after h) (sop_t o0) = sumof (fun x : sphrase * phrase => k_st (scounts_after h) (fst x) (sop_t o0)) L).
  { rewrite (marg_t h TR (sop_t o0) (map fst L) ND ALL). apply (sumof_map _ _ fst (fun s => k_st (scounts_after h) s (sop_t o0))). }
  rewrite (sumR_ext _ _ (fun x => IZR (k_st (scounts_after h) (fst x) (sop_t o0)) / IZR (k_t (scounts_after h) (sop_t o0)))).
  - rewrite sumR_div. rewrite (sumR_Z _ (fun x => k_st (scounts_after h) (fst x) (sop_t o0))), <- M. field. apply not_0_IZR. lia.
  - intros [hs s] Hx. destruct (ONLY hs s Hx) as (Es & o & Ho & Eo & Eto). cbn [fst snd]. destruct (k_seen h TR o Ho) as (Q1 & Q2 & Q3). rewrite Forall_forall in US. destruct (US o Ho) as (U1 & U2 & U3). rewrite <- Forall_forall in US.
    subst hs. rewrite Eto in U2, U3, Q3. destruct (phrase_probs h (sop_s o) (sop_t o0) s t TR US FI U1 U2 U3 Es Et) as [_ F]. destruct F as (F1 & _ & F2); [lia|]. rewrite F2. apply Rmax_right.
    unfold floor_val. assert (1 <= IZR (k_st (scounts_after h) (sop_s o) (sop_t o0))) by (apply IZR_le; lia). apply IZR_le in BIG. apply IZR_lt in P1.
    apply Rmult_le_reg_r with (IZR (k_t (scounts_after h) (sop_t o0))); [exact P1|]. unfold Rdiv at 1. rewrite Rmult_assoc, Rinv_l, Rmult_1_r by lra. lra.
Qed.
