(** Proofs about the phrase model: words and indices, training. *)
From Coq Require Import Ascii String Arith ZArith NArith List Bool Lia.
From Verif Require Import TextSpec TextModel AMap VocabSpec VocabModel VocabProofs AligSpec ExtrSpec ExtrModel PropertiesExtr CodecModel PtSpec PtModel PtProofs PmSpec PmModel.
Import ListNotations.
Open Scope Z_scope.

Definition idx (names : list str) (w : str) : N := N.of_nat (match position w names with Some i => i | None => 0 end).
Definition enc (names : list str) (ws : sphrase) : phrase := map (idx names) ws.
Definition enc_op (sn tn : list str) (o : sop) : pt_op :=
  match o with SIncr s t c => PIncr (enc sn s) (enc tn t) c | SAdd s t cs cst => PAdd (enc sn s) (enc tn t) cs cst end.

Lemma toIndices_ok : forall ws v names, holds v names ->
  let n' := fold_left add_name ws names in fst (toIndices ws v) = enc n' ws /\ holds (snd (toIndices ws v)) n'.
Proof.
  intros ws v names H n'. destruct (holds_adds ws v names H) as [H1 H2]. unfold toIndices. destruct (strVectorToIndexVector ws v) as [is v']. cbn [fst snd] in *. fold n' in H1, H2. split; [|exact H1].
  clear H1 H. revert is H2. generalize n'. clear. intros n. induction ws as [|w ws IH]; intros [|i is] H; try discriminate; [reflexivity|]. cbn [map] in H. injection H as E1 E2. cbn [map enc]. f_equal; [|apply IH, E2]. unfold idx. now rewrite <- E1.
Qed.
Lemma position_in : forall w names, In w names -> exists i, position w names = Some i.
Proof. intros w names H. destruct (position w names) eqn:E; [eauto|]. apply position_none in E. contradiction. Qed.
Lemma enc_mono : forall more ws names, (forall w, In w ws -> In w names) -> enc (fold_left add_name more names) ws = enc names ws.
Proof.
  intros more ws names H. unfold enc. apply map_ext_in. intros w Hw. destruct (position_in w names (H w Hw)) as [i E]. unfold idx. rewrite (position_mono more names w i E), E. reflexivity.
Qed.
Lemma enc_inj : forall names a b, NoDup names -> (forall w, In w a -> In w names) -> (forall w, In w b -> In w names) -> enc names a = enc names b -> a = b.
Proof.
  intros names a b ND. revert b. induction a as [|w a IH]; intros [|x b] Ha Hb E; try discriminate; [reflexivity|]. cbn in E. injection E as E1 E2. f_equal; [|apply IH; auto; intros; [apply Ha|apply Hb]; now right].
  destruct (position_in w names) as [i Ei]; [apply Ha; now left|]. destruct (position_in x names) as [j Ej]; [apply Hb; now left|]. unfold idx in E1. rewrite Ei, Ej in E1. assert (i = j) by lia. subst j.
  apply position_some in Ei, Ej; auto. congruence.
Qed.
Lemma run_enc : forall h m sn tn, holds (p_sv m) sn -> holds (p_tv m) tn ->
  let sn' := fold_left add_name (s_words h) sn in let tn' := fold_left add_name (t_words h) tn in
  holds (p_sv (pm_run h m)) sn' /\ holds (p_tv (pm_run h m)) tn' /\ p_tab (pm_run h m) = fold_left hat_step (map (enc_op sn' tn') h) (p_tab m).
Proof.
  induction h as [|o h IH]; intros m sn tn Hs Ht; cbv zeta; [split; [exact Hs|split; [exact Ht|reflexivity]]|].
  cbn [pm_run fold_left s_words t_words flat_map map]. rewrite !fold_left_app. fold (s_words h) (t_words h).
  set (sn1 := fold_left add_name (sop_s o) sn). set (tn1 := fold_left add_name (sop_t o) tn).
  destruct (toIndices_ok (sop_s o) (p_sv m) sn Hs) as [A1 A2]. destruct (toIndices_ok (sop_t o) (p_tv m) tn Ht) as [B1 B2]. fold sn1 in A1, A2. fold tn1 in B1, B2.
  assert (X : holds (p_sv (pm_step m o)) sn1 /\ holds (p_tv (pm_step m o)) tn1 /\ p_tab (pm_step m o) = hat_step (p_tab m) (enc_op sn1 tn1 o)).
  { destruct o as [s t c|s t cs cst]; cbn [pm_step sop_s sop_t enc_op hat_step] in *; unfold strIncrCountsOfEntry, strAddTableEntry;
      destruct (toIndices s (p_sv m)) as [is sv]; destruct (toIndices t (p_tv m)) as [it tv]; cbn [fst snd p_sv p_tv p_tab] in *; subst is it; auto. }
  destruct X as [X1 [X2 X3]]. destruct (IH (pm_step m o) sn1 tn1 X1 X2) as [Y1 [Y2 Y3]]. unfold pm_run in *. split; [exact Y1|split; [exact Y2|]]. rewrite Y3, X3. f_equal. f_equal.
  assert (Is : forall w, In w (sop_s o) -> In w sn1) by (intros w Hw; apply names_in; auto).
  assert (It : forall w, In w (sop_t o) -> In w tn1) by (intros w Hw; apply names_in; auto).
  destruct o; cbn [enc_op sop_s sop_t] in *; rewrite !enc_mono by auto; reflexivity.
Qed.
Lemma names_nodup : forall ws, NoDup (names_after ws).
Proof. intros ws. apply (holds_adds ws clear_voc reserved holds_clear). Qed.

(** ** contents at word level *)
Definition srel (sn tn : list str) (c : contents) (k : scounts) : Prop :=
  (forall s, incl s sn -> val (c_src c (enc sn s)) = k_s k s) /\ (forall t, incl t tn -> c_trg c (enc tn t) = k_t k t) /\
  (forall s t, incl s sn -> incl t tn -> val (c_st c (enc sn s) (enc tn t)) = k_st k s t).
Lemma srel_run : forall sn tn h c k, NoDup sn -> NoDup tn -> srel sn tn c k -> (forall o, In o h -> incl (sop_s o) sn /\ incl (sop_t o) tn) ->
  srel sn tn (fold_left op_effect (map (enc_op sn tn) h) c) (fold_left sop_effect h k).
Proof.
  intros sn tn h. induction h as [|o h IH]; intros c k Ns Nt R H; [exact R|]. cbn [map fold_left]. apply IH; auto; [|intros; apply H; now right].
  destruct (H o ltac:(now left)) as [Hs Ht]. destruct R as (R1 & R2 & R3). clear IH H.
  assert (Es : forall x, incl x sn -> (enc sn x = enc sn (sop_s o) <-> x = sop_s o)) by (intros x Hx; split; [intros E; apply (enc_inj sn); auto|now intros ->]).
  assert (Et : forall x, incl x tn -> (enc tn x = enc tn (sop_t o) <-> x = sop_t o)) by (intros x Hx; split; [intros E; apply (enc_inj tn); auto|now intros ->]).
  destruct o as [s t c0|s t cs cst]; cbn [sop_s sop_t enc_op op_effect sop_effect] in *; (split; [|split]); cbn [c_src c_trg c_st k_s k_t k_st].
  - intros x Hx. rewrite val_upd1, R1 by auto. unfold sset. destruct (phrase_dec _ _) as [E|E]; destruct (sphrase_dec x s) as [E'|E']; auto; [apply Es in E; auto; contradiction|subst; contradiction].
  - intros x Hx. unfold upd1, sset. destruct (phrase_dec _ _) as [E|E]; destruct (sphrase_dec x t) as [E'|E']; auto; [rewrite R2 by auto; reflexivity|apply Et in E; auto; contradiction|subst; contradiction].
  - intros x y Hx Hy. rewrite val_upd2. unfold sset2. rewrite !R3 by auto.
    destruct (phrase_dec _ _) as [E|E]; destruct (sphrase_dec x s) as [E'|E']; auto; [|apply Es in E; auto; contradiction|subst; contradiction].
    destruct (phrase_dec _ _) as [F|F]; destruct (sphrase_dec y t) as [F'|F']; auto; [apply Et in F; auto; contradiction|subst; contradiction].
  - intros x Hx. rewrite val_upd1, R1 by auto. unfold sset. destruct (phrase_dec _ _) as [E|E]; destruct (sphrase_dec x s) as [E'|E']; auto; [apply Es in E; auto; contradiction|subst; contradiction].
  - intros x Hx. unfold upd1, sset. destruct (phrase_dec _ _) as [E|E]; destruct (sphrase_dec x t) as [E'|E']; auto; [rewrite R2 by auto; reflexivity|apply Et in E; auto; contradiction|subst; contradiction].
  - intros x y Hx Hy. rewrite val_upd2. unfold sset2. rewrite !R3 by auto.
    destruct (phrase_dec _ _) as [E|E]; destruct (sphrase_dec x s) as [E'|E']; auto; [|apply Es in E; auto; contradiction|subst; contradiction].
    destruct (phrase_dec _ _) as [F|F]; destruct (sphrase_dec y t) as [F'|F']; auto; [apply Et in F; auto; contradiction|subst; contradiction].
Qed.
Lemma srel0 : forall sn tn, srel sn tn no_contents scounts0.
Proof. intros. split; [|split]; intros; reflexivity. Qed.
(** counts of phrases that were never mentioned *)
Lemma scounts_absent : forall h k, (forall s, ~ In s (map sop_s h) -> k_s (fold_left sop_effect h k) s = k_s k s) /\
  (forall t, ~ In t (map sop_t h) -> k_t (fold_left sop_effect h k) t = k_t k t) /\
  (forall s t, ~ In s (map sop_s h) \/ ~ In t (map sop_t h) -> k_st (fold_left sop_effect h k) s t = k_st k s t).
Proof.
  induction h as [|o h IH]; intros k; [cbn; auto|]. cbn [fold_left map]. destruct (IH (sop_effect k o)) as (A & B & C). split; [|split].
  - intros s N. rewrite A by (intro; apply N; now right). assert (s <> sop_s o) by (intro; subst; apply N; now left). destruct o; cbn in *; unfold sset; destruct (sphrase_dec _ _); congruence.
  - intros t N. rewrite B by (intro; apply N; now right). assert (t <> sop_t o) by (intro; subst; apply N; now left). destruct o; cbn in *; unfold sset; destruct (sphrase_dec _ _); congruence.
  - intros s t N. rewrite C by (destruct N as [N|N]; [left|right]; intro; apply N; now right).
    assert (X : s <> sop_s o \/ t <> sop_t o) by (destruct N as [N|N]; [left|right]; intro; subst; apply N; now left).
    destruct o; cbn in *; unfold sset2; destruct (sphrase_dec _ _); auto; destruct (sphrase_dec _ _); auto; destruct X; congruence.
Qed.

(** ** queries *)
Lemma known_spec : forall ws v names, holds v names ->
  (incl ws names -> known_indices ws v = Some (enc names ws)) /\ (~ incl ws names -> known_indices ws v = None).
Proof.
  intros ws v names H. pose proof H as (ND & WF & HS & HI & HL).
  assert (EX : forall w, existSymbol w v = true <-> In w names).
  { intros w. unfold existSymbol. rewrite HS. destruct (position w names) eqn:E; split; intro Q; try discriminate; auto.
    - destruct (in_dec str_dec w names); auto. apply position_none in n0. congruence.
    - apply position_none in E. contradiction. }
  induction ws as [|w ws [IH1 IH2]]; split; intros Q.
  - reflexivity.
  - exfalso. apply Q. intros x [].
  - cbn [known_indices]. assert (E : existSymbol w v = true) by (apply EX, Q; now left). rewrite E. cbn [negb]. rewrite IH1 by (intros x Hx; apply Q; now right).
    cbn [enc map]. f_equal. f_equal. unfold stringToWordIndex, idx. rewrite HS. destruct (position_in w names) as [i Ei]; [apply Q; now left|]. now rewrite Ei.
  - cbn [known_indices]. destruct (existSymbol w v) eqn:E; cbn [negb]; [|reflexivity]. rewrite IH2; [reflexivity|]. intros Q'. apply Q. intros x [<-|Hx]; [now apply EX|auto].
Qed.
Lemma reserved_positions : forall ws w, position w (names_after ws) = Some 2%nat -> w = T "<UNUSED_WORD>".
Proof.
  intros ws w E. apply position_some in E; [|apply names_nodup]. unfold names_after in E. destruct (names_prefix ws reserved) as [r R]. rewrite R in E. change (Some (T "<UNUSED_WORD>") = Some w) in E. injection E as <-. reflexivity.
Qed.
Lemma enc_good : forall ws p, (N.of_nat (length (names_after ws)) <= 254 ^ 3)%N -> incl p (names_after ws) -> usable p -> good_src (enc (names_after ws) p).
Proof.
  intros ws p B I U. unfold good_src, enc. apply Forall_forall. intros x Hx. apply in_map_iff in Hx. destruct Hx as [w [<- Hw]]. destruct (position_in w _ (I w Hw)) as [i E]. unfold idx. rewrite E. split.
  - apply position_some in E; [|apply names_nodup]. assert (L : (i < length (names_after ws))%nat) by (apply nth_error_Some; congruence). lia.
  - intros Q. assert (i = 2%nat) by lia. subst i. apply reserved_positions in E. subst w. contradiction.
Qed.
Lemma names_incl_s : forall h o, In o h -> incl (sop_s o) (names_after (s_words h)).
Proof. intros h o Ho w Hw. unfold names_after. apply names_in. right. unfold s_words. apply in_flat_map. eauto. Qed.
Lemma names_incl_t : forall h o, In o h -> incl (sop_t o) (names_after (t_words h)).
Proof. intros h o Ho w Hw. unfold names_after. apply names_in. right. unfold t_words. apply in_flat_map. eauto. Qed.
Definition SN (h : list sop) := names_after (s_words h).
Definition TN (h : list sop) := names_after (t_words h).
Lemma pm_state : forall h, Forall usable_op h -> fits_index h ->
  holds (p_sv (pm_run h pm_clear)) (SN h) /\ holds (p_tv (pm_run h pm_clear)) (TN h) /\
  p_tab (pm_run h pm_clear) = hat_run (map (enc_op (SN h) (TN h)) h) /\ Forall good_op (map (enc_op (SN h) (TN h)) h) /\
  srel (SN h) (TN h) (contents_after (map (enc_op (SN h) (TN h)) h)) (scounts_after h).
Proof.
  intros h U [B1 B2]. destruct (run_enc h pm_clear reserved reserved holds_clear holds_clear) as [H1 [H2 H3]].
  split; [exact H1|]. split; [exact H2|]. split; [exact H3|]. split.
  - apply Forall_forall. intros x Hx. apply in_map_iff in Hx. destruct Hx as [o [<- Ho]]. rewrite Forall_forall in U. destruct (U o Ho) as (U1 & U2 & U3).
    pose proof (enc_good (s_words h) (sop_s o) B1 (names_incl_s h o Ho) U1) as G1. pose proof (enc_good (t_words h) (sop_t o) B2 (names_incl_t h o Ho) U2) as G2.
    destruct o; cbn [enc_op good_op sop_s sop_t] in *; (split; [exact G1|split; [exact G2|]]); destruct t; try contradiction; discriminate.
  - apply srel_run; [apply names_nodup|apply names_nodup|apply srel0|]. intros o Ho. split; [apply names_incl_s|apply names_incl_t]; auto.
Qed.
Lemma incl_decide : forall a b : list str, {incl a b} + {~ incl a b}.
Proof.
  induction a as [|w a IH]; intros b; [left; intros x []|]. destruct (in_dec str_dec w b) as [I|I]; [|right; intros Q; apply I, Q; now left].
  destruct (IH b) as [J|J]; [left; intros x [<-|Hx]; auto|right; intros Q; apply J; intros x Hx; apply Q; now right].
Qed.
Theorem pm_counts : forall h hs ht, Forall usable_op h -> fits_index h -> usable hs -> usable ht -> ht <> [] ->
  let m := pm_run h pm_clear in
  cHSrcHTrg hs ht m = k_st (scounts_after h) hs ht /\ cHSrc hs m = k_s (scounts_after h) hs /\ cHTrg ht m = k_t (scounts_after h) ht.
Proof.
  intros h hs ht U F Us Ut Ne m. destruct (pm_state h U F) as (H1 & H2 & H3 & G & R1 & R2 & R3). fold m in H1, H2, H3.
  pose proof (HR_run _ G) as HR. destruct HR as [_ K1 K2 K3]. rewrite <- H3 in K1, K2, K3. destruct F as [B1 B2].
  destruct (known_spec hs (p_sv m) (SN h) H1) as [S1 S2]. destruct (known_spec ht (p_tv m) (TN h) H2) as [T1 T2].
  destruct (scounts_absent h scounts0) as (A1 & A2 & A3). fold (scounts_after h) in A1, A2, A3.
  assert (Ds : ~ incl hs (SN h) -> ~ In hs (map sop_s h)) by (intros N Q; apply in_map_iff in Q; destruct Q as [o [<- Ho]]; apply N, names_incl_s, Ho).
  assert (Dt : ~ incl ht (TN h) -> ~ In ht (map sop_t h)) by (intros N Q; apply in_map_iff in Q; destruct Q as [o [<- Ho]]; apply N, names_incl_t, Ho).
  assert (Gs : incl hs (SN h) -> good_src (enc (SN h) hs)) by (intros; now apply enc_good).
  assert (Gt : incl ht (TN h) -> good_trg (enc (TN h) ht)) by (intros; split; [now apply enc_good|destruct ht; [contradiction|discriminate]]).
  unfold cHSrcHTrg, cHSrc, cHTrg, hat_cSrcTrg, hat_cSrc, hat_cTrg, hat_getSrcTrgInfo, hat_getSrcInfo, hat_getTrgInfo.
  destruct (incl_decide hs (SN h)) as [Is|Is]; destruct (incl_decide ht (TN h)) as [It|It];
    rewrite ?S1, ?S2, ?T1, ?T2 by auto; (split; [|split]); try (symmetry; first [apply A1|apply A2|apply A3]; auto; fail);
    first [rewrite K3 by auto; apply R3|rewrite K1 by auto; apply R1|rewrite K2 by auto; apply R2]; auto.
Qed.

(** ** training *)
Lemma sumof_app : forall A (f : A -> Z) a b, sumof f (a ++ b) = sumof f a + sumof f b.
Proof. intros A f a b. unfold sumof. induction a as [|x a IH]; cbn; [reflexivity|]. rewrite IH. lia. Qed.
Definition incrs_of (l : list (sphrase * sphrase * Z)) : list sop := map (fun x => SIncr (fst (fst x)) (snd (fst x)) (snd x)) l.
Lemma incr_sums : forall l k, let k' := fold_left sop_effect (incrs_of l) k in
  (forall s, k_s k' s = k_s k s + sumof (fun x => if sphrase_dec s (fst (fst x)) then snd x else 0) l) /\
  (forall t, k_t k' t = k_t k t + sumof (fun x => if sphrase_dec t (snd (fst x)) then snd x else 0) l) /\
  (forall s t, k_st k' s t = k_st k s t + sumof (fun x => if sphrase_dec s (fst (fst x)) then if sphrase_dec t (snd (fst x)) then snd x else 0 else 0) l).
Proof.
  induction l as [|[[a b] c] l IH]; intros k; cbv zeta; [unfold sumof; cbn; repeat split; intros; lia|].
  cbn [incrs_of map fold_left fst snd]. destruct (IH (sop_effect k (SIncr a b c))) as (A & B & C). unfold sumof in *. cbn [map fold_right fst snd]. split; [|split].
  - intros s. rewrite A. cbn [sop_effect k_s]. unfold sset. destruct (sphrase_dec s a); [subst|]; lia.
  - intros t. rewrite B. cbn [sop_effect k_t]. unfold sset. destruct (sphrase_dec t b); [subst|]; lia.
  - intros s t. rewrite C. cbn [sop_effect k_st]. unfold sset2. destruct (sphrase_dec s a); [|lia]. destruct (sphrase_dec t b); [subst|]; lia.
Qed.
Lemma pm_run_app : forall a b m, pm_run (a ++ b) m = pm_run b (pm_run a m).
Proof. intros. unfold pm_run. apply fold_left_app. Qed.
Definition pair_list (reps : Z) (l : list (ppair str)) : list (sphrase * sphrase * Z) := map (fun p => (pp_s p, pp_t p, reps)) l.
Lemma store_ok : forall reps l m, Forall (fun p : ppair str => pp_sum p = N.of_nat (pp_num p) /\ pp_num p <> 0%nat) l ->
  storePhrasePairs l reps m = Some (pm_run (incrs_of (pair_list reps l)) m).
Proof.
  intros reps l. induction l as [|p l IH]; intros m F; [reflexivity|]. inversion F as [|? ? [E1 E2] F']; subst. cbn [storePhrasePairs pair_list map incrs_of].
  assert (W : scaled_weight reps p = Some reps).
  { unfold scaled_weight. destruct (Nat.eqb_spec (pp_num p) 0); [contradiction|]. rewrite E1. replace (Z.of_N (N.of_nat (pp_num p))) with (Z.of_nat (pp_num p)) by lia. cbv zeta.
    rewrite Z.mod_mul by lia. rewrite Z.div_mul by lia. reflexivity. }
  rewrite W. rewrite IH by exact F'. reflexivity.
Qed.
Lemma categ_count_occ : forall c p, categ_count c p = occurrences c p.
Proof. intros c p. unfold categ_count, occurrences. induction p as [|w p IH]; [reflexivity|]. cbn. destruct (str_dec w c); cbn; rewrite IH; reflexivity. Qed.
Lemma phrasePairIsOk_spec : forall s t, phrasePairIsOk s t = true <-> same_categories s t.
Proof.
  intros s t. unfold phrasePairIsOk, same_categories. rewrite forallb_forall. fold categories. split; intros H c Hc; specialize (H c Hc); rewrite ?Nat.eqb_eq, ?categ_count_occ in *; exact H.
Qed.
Lemma words_incl : forall W (l : list W) a b, incl (ExtrSpec.words l a b) l.
Proof.
  intros W l a b x Hx. unfold ExtrSpec.words in Hx. assert (F : forall n (k : list W), In x (firstn n k) -> In x k) by (intros n k Q; rewrite <- (firstn_skipn n k); apply in_or_app; auto).
  apply F in Hx. rewrite <- (firstn_skipn (a - 1) l). apply in_or_app. auto.
Qed.
Lemma links_weight : forall A i1 i2 j1 j2 v n, zero_one A -> consistent A i1 i2 j1 j2 -> links_inside A i1 i2 j1 j2 v n -> v = N.of_nat n /\ n <> 0%nat.
Proof.
  intros A i1 i2 j1 j2 v n Z1 C (L & ND & Len & In_ & E). split.
  - subst v n. assert (H : forall i j, In (i, j) L -> wc A (i - 1) (j - 1) = 1%N).
    { intros i j Hij. apply In_ in Hij. destruct Hij as [(_ & _ & _ & N) _]. destruct (Z1 (i - 1)%nat (j - 1)%nat); [contradiction|assumption]. }
    clear - H. induction L as [|[i j] L IH]; [reflexivity|]. cbn [map fold_right fst snd length]. rewrite (H i j) by now left. rewrite IH by (intros; apply H; now right). lia.
  - destruct C as (_ & _ & _ & _ & (i & j & Lk & Bi & Bj) & _). assert (X : In (i, j) L) by (apply In_; auto). destruct L; [destruct X|]. cbn in Len. lia.
Qed.
(** what one item contributes *)
Definition item_list (i : titem) (L : list (nat * nat * nat * nat)) : list (sphrase * sphrase * Z) := map (fun q => (span_s i q, span_t i q, it_reps i)) L.
Lemma item_ok : forall P i, good_item i -> exists L, item_spans P i L /\
  (forall m, extendModelFromPairPlusAlig P (addNullWordToStrVec (it_s i)) (it_t i) (it_A i) (it_reps i) m = Some (pm_run (incrs_of (item_list i L)) m)) /\
  (forall q, In q L -> incl (span_s i q) (it_s i) /\ incl (span_t i q) (it_t i) /\ span_t i q <> []).
Proof.
  intros P i (DI & DJ & ZO & NE & _). unfold extendModelFromPairPlusAlig, addNullWordToStrVec.
  destruct (lt_dec (length (it_s i)) MAX_SENTENCE_LENGTH) as [L1|L1]; [destruct (lt_dec (length (it_t i)) MAX_SENTENCE_LENGTH) as [L2|L2]|].
  2,3: exists []; (split; [split; [intros [? ?]; contradiction|reflexivity]|split; [|intros q []]]); intros m;
       (destruct (Nat.ltb_spec (length (it_t i)) MAX_SENTENCE_LENGTH); destruct (Nat.ltb_spec (length (it_s i)) MAX_SENTENCE_LENGTH); try lia; reflexivity).
  destruct (C42_spans str (it_A i) P (T "NULL") (it_s i) (it_t i) [] DI DJ NE L1 L2) as (L & ND & F & MU).
  set (ok := fun q => phrasePairIsOk (span_s i q) (span_t i q)). exists (filter ok L).
  assert (FO : forall q, In q L -> admissible (it_A i) P q).
  { clear - F. intros q Hq. induction F as [|q0 p L' l' E F IH]; [destruct Hq|]. destruct Hq as [<-|Hq]; [|auto]. destruct q0 as [[[i1 i2] j1] j2]. unfold extracted_from in E. unfold admissible. tauto. }
  split; [|split].
  - split; [|intros N; exfalso; apply N; split; assumption]. intros _. split; [apply NoDup_filter, ND|]. split.
    + intros q Hq. apply filter_In in Hq. destruct Hq as [Hq Ok]. split; [apply FO, Hq|apply phrasePairIsOk_spec, Ok].
    + intros i1 i2 j1 j2 M SC. apply filter_In. split; [apply MU, M|apply phrasePairIsOk_spec, SC].
  - intros m. destruct (Nat.ltb_spec (length (it_t i)) MAX_SENTENCE_LENGTH); [|lia]. destruct (Nat.ltb_spec (length (it_s i)) MAX_SENTENCE_LENGTH); [|lia]. cbn [andb]. cbv zeta.
    assert (E : pair_list (it_reps i) (filter (fun p => phrasePairIsOk (pp_s p) (pp_t p)) (extractOld (it_A i) (T "NULL" :: it_s i) (it_t i) P [])) = item_list i (filter ok L) /\
      Forall (fun p : ppair str => pp_sum p = N.of_nat (pp_num p) /\ pp_num p <> 0%nat) (filter (fun p => phrasePairIsOk (pp_s p) (pp_t p)) (extractOld (it_A i) (T "NULL" :: it_s i) (it_t i) P []))).
    { clear ND MU FO. induction F as [|q p L' l' Eq F [IH1 IH2]]; [split; [reflexivity|constructor]|]. destruct q as [[[i1 i2] j1] j2].
      destruct Eq as (C & Es & Et & _ & _ & _ & _ & LI). cbn [filter]. unfold ok at 1. cbn [span_s span_t]. rewrite <- Es, <- Et. destruct (phrasePairIsOk (pp_s p) (pp_t p)); [|split; assumption].
      split; [|constructor; [|exact IH2]; eapply links_weight; eauto]. cbn [pair_list item_list map span_s span_t]. rewrite <- Es, <- Et. f_equal. exact IH1. }
    destruct E as [E1 E2]. rewrite store_ok by exact E2. rewrite E1. reflexivity.
  - intros q Hq. apply filter_In in Hq. destruct Hq as [Hq _]. specialize (FO q Hq). destruct q as [[[i1 i2] j1] j2]. cbn [span_s span_t]. split; [apply words_incl|]. split; [apply words_incl|].
    destruct FO as [(B1 & B2 & B3 & B4 & _) _]. unfold ExtrSpec.words. intros Q. apply (f_equal (@length str)) in Q. rewrite firstn_length, skipn_length in Q. cbn [length] in Q. lia.
Qed.
Definition corpus_list (items : list titem) (Ls : list (list (nat * nat * nat * nat))) : list (sphrase * sphrase * Z) :=
  flat_map (fun x => item_list (fst x) (snd x)) (combine items Ls).
Lemma corpus_ok : forall P items, Forall good_item items -> exists Ls, Forall2 (item_spans P) items Ls /\
  (forall m, extendModelFromAlignments P items m = Some (pm_run (incrs_of (corpus_list items Ls)) m)) /\
  (forall x, In x (corpus_list items Ls) -> incl (fst (fst x)) (flat_map it_s items) /\ incl (snd (fst x)) (flat_map it_t items) /\ snd (fst x) <> []).
Proof.
  intros P items F. induction F as [|i items G F IH]; [exists []; split; [constructor|split; [reflexivity|intros x []]]|].
  destruct IH as (Ls & I1 & I2 & I3). destruct (item_ok P i G) as (L & J1 & J2 & J3). exists (L :: Ls). split; [constructor; assumption|]. split.
  - intros m. cbn [extendModelFromAlignments]. rewrite J2, I2. unfold corpus_list. cbn [combine flat_map fst snd]. unfold incrs_of. rewrite map_app, pm_run_app. reflexivity.
  - unfold corpus_list. cbn [combine flat_map fst snd]. intros x Hx. apply in_app_or in Hx. destruct Hx as [Hx|Hx].
    + unfold item_list in Hx. apply in_map_iff in Hx. destruct Hx as [q [<- Hq]]. cbn [fst snd]. destruct (J3 q Hq) as (K1 & K2 & K3). split; [apply incl_appl, K1|split; [apply incl_appl, K2|exact K3]].
    + destruct (I3 x Hx) as (K1 & K2 & K3). split; [apply incl_appr, K1|split; [apply incl_appr, K2|exact K3]].
Qed.
Lemma names_length_mono : forall a b, incl a b -> (length (names_after a) <= length (names_after b))%nat.
Proof.
  intros a b I. apply NoDup_incl_length; [apply names_nodup|]. intros w Hw. unfold names_after in *. apply names_in in Hw. apply names_in. destruct Hw; [now left|right; auto].
Qed.
Lemma sum_items : forall (f : sphrase -> sphrase -> bool) items Ls,
  sumof (fun x => if f (fst (fst x)) (snd (fst x)) then snd x else 0) (corpus_list items Ls) =
  sumof (fun x => it_reps (fst x) * how_many (fun q => f (span_s (fst x) q) (span_t (fst x) q)) (snd x)) (combine items Ls).
Proof.
  intros f items. induction items as [|i items IH]; intros [|L Ls]; try reflexivity. unfold corpus_list in *. cbn [combine flat_map fst snd]. rewrite sumof_app, IH.
  match goal with |- _ = sumof ?g (?a :: ?l) => change (sumof g (a :: l)) with (g a + sumof g l) end. f_equal. cbn [fst snd]. clear. unfold how_many, item_list, sumof.
  induction L as [|q L IH]; [cbn; lia|]. cbn [map fold_right filter fst snd]. rewrite IH. destruct (f (span_s i q) (span_t i q)); cbn [length]; rewrite ?Nat2Z.inj_succ; ring.
Qed.
Theorem training_counts : forall P items, Forall good_item items -> corpus_fits items -> forall m0, exists m Ls,
  generateWbaIncrPhraseModel P items m0 = Some m /\ Forall2 (item_spans P) items Ls /\
  forall hs ht, usable hs -> usable ht -> ht <> [] ->
   cHSrcHTrg hs ht m = sumof (fun x => it_reps (fst x) * how_many (fun q => is_phrase hs (span_s (fst x) q) && is_phrase ht (span_t (fst x) q)) (snd x)) (combine items Ls) /\
   cHSrc hs m = sumof (fun x => it_reps (fst x) * how_many (fun q => is_phrase hs (span_s (fst x) q)) (snd x)) (combine items Ls) /\
   cHTrg ht m = sumof (fun x => it_reps (fst x) * how_many (fun q => is_phrase ht (span_t (fst x) q)) (snd x)) (combine items Ls).
Proof.
  intros P items G [F1 F2] m0. destruct (corpus_ok P items G) as (Ls & I1 & I2 & I3). unfold generateWbaIncrPhraseModel.
  exists (pm_run (incrs_of (corpus_list items Ls)) pm_clear), Ls. split; [apply I2|]. split; [exact I1|]. intros hs ht Us Ut Ne.
  set (h := incrs_of (corpus_list items Ls)).
  assert (Uw : usable (flat_map it_s items) /\ usable (flat_map it_t items)).
  { rewrite Forall_forall in G. split; intros Q; apply in_flat_map in Q; destruct Q as [i [Hi Q]]; destruct (G i Hi) as (_ & _ & _ & _ & U1 & U2); [apply U1|apply U2]; exact Q. }
  assert (In_h : forall o, In o h -> incl (sop_s o) (flat_map it_s items) /\ incl (sop_t o) (flat_map it_t items) /\ sop_t o <> []).
  { intros o Ho. unfold h, incrs_of in Ho. apply in_map_iff in Ho. destruct Ho as [x [<- Hx]]. cbn [sop_s sop_t]. apply I3, Hx. }
  assert (U : Forall usable_op h).
  { apply Forall_forall. intros o Ho. destruct (In_h o Ho) as (A & B & C). split; [intros Q; apply (proj1 Uw), A, Q|split; [intros Q; apply (proj2 Uw), B, Q|exact C]]. }
  assert (FI : fits_index h).
  { split; [eapply N.le_trans; [|exact F1]|eapply N.le_trans; [|exact F2]].
    - assert (X : incl (s_words h) (flat_map it_s items)) by (intros w Hw; unfold s_words in Hw; apply in_flat_map in Hw; destruct Hw as [o [Ho Hw]]; apply (In_h o Ho), Hw). apply names_length_mono in X. lia.
    - assert (X : incl (t_words h) (flat_map it_t items)) by (intros w Hw; unfold t_words in Hw; apply in_flat_map in Hw; destruct Hw as [o [Ho Hw]]; apply (In_h o Ho), Hw). apply names_length_mono in X. lia. }
  destruct (pm_counts h hs ht U FI Us Ut Ne) as (C1 & C2 & C3). rewrite C1, C2, C3. unfold scounts_after, h.
  destruct (incr_sums (corpus_list items Ls) scounts0) as (S1 & S2 & S3). cbv zeta in S1, S2, S3. rewrite S1, S2, S3. cbn [k_s k_t k_st scounts0]. rewrite !Z.add_0_l.
  rewrite <- (sum_items (fun s t => is_phrase hs s && is_phrase ht t)), <- (sum_items (fun s t => is_phrase hs s)), <- (sum_items (fun s t => is_phrase ht t)).
  unfold is_phrase, sumof. repeat split; f_equal; apply map_ext; intros x; destruct (sphrase_dec _ _); cbn; try reflexivity; destruct (sphrase_dec _ _); reflexivity.
Qed.
