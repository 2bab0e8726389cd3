(** Proofs about printing and loading the language model. *)
From Coq Require Import Ascii String Arith NArith QArith Lqa List Bool Lia Permutation.
From Verif Require Import AMap ContainerSpec ContainerModel ContainerProofs TrieIterSpec TrieIterModel TrieIterProofs LmSpec LmModel LmDrive LmTabProofs LmEncProofs.
Import ListNotations.
Open Scope nat_scope.

Lemma ngram_touched : forall ops (s : list nat) i cur, ngram_after Nat.eq_dec s i ops cur <> cur ->
  exists o, In o ops /\ match o with OpIncr h w _ => h = s /\ w = i | OpSet h w _ _ => h = s /\ w = i end.
Proof.
  induction ops as [|o ops IH]; intros s i cur H; [exfalso; apply H; reflexivity|].
  destruct o as [h w c|h w cs cst]; cbn [ngram_after] in H.
  - destruct (same Nat.eq_dec s h i w) eqn:E.
    + apply same_true in E. destruct E as [-> ->]. eexists. split; [now left|]. cbn. auto.
    + destruct (IH s i cur H) as (o & I & P). exists o. split; auto. now right.
  - destruct (same Nat.eq_dec s h i w) eqn:E.
    + apply same_true in E. destruct E as [-> ->]. eexists. split; [now left|]. cbn. auto.
    + destruct (IH s i cur H) as (o & I & P). exists o. split; auto. now right.
Qed.

Lemma codes_back : forall b e hs s, encb b e -> codes e hs s -> Src_to_HighSrc s e = Some hs.
Proof.
  intros b e hs s (_ & W & _) C. induction C as [|w i hs s E C IH]; auto. cbn [Src_to_HighSrc]. apply W in E. rewrite E. cbn [obind]. rewrite IH. reflexivity.
Qed.

Lemma touched_decodes : forall t0 ops iops m s i c, tabwf t0 -> lmrel t0 ops iops m -> (forall h w, vst h w t0 = 0%Q) -> val (s ++ [i]) (tst (ltab m)) = c -> c <> 0%Q ->
  exists hs w, codes (lenc m) hs s /\ enc_find w (lenc m) = Some i.
Proof.
  intros t0 ops iops m s i c W0 (W & T & F) Z V N. destruct (tab_run_ok iops t0 W0) as (t & E & Wt & A & _). assert (t = ltab m) by congruence. subst t.
  change (val (s ++ [i]) (tst (ltab m))) with (vst s i (ltab m)) in V. rewrite A, Z in V.
  destruct (ngram_touched iops s i 0%Q) as (o & I & P); [congruence|]. clear -F I P.
  induction F as [|p p' ops iops X F IH]; [destruct I|]. destruct I as [->|I]; [|auto].
  destruct p as [h w c|h w cs cst], o as [s' i' c'|s' i' cs' cst']; cbn [op_enc] in X; try tauto; destruct P as [-> ->]; exists h, w; intuition.
Qed.


Lemma print_loop_ok : forall m l, encwf (lenc m) -> tabwf (ltab m) -> NoDup (map fst l) ->
  (forall s i c, In (s ++ [i], c) l -> Qle_bool c 0 = false -> exists hs w, codes (lenc m) hs s /\ enc_find w (lenc m) = Some i) ->
  exists lines, print_loop m l = Some lines /\ NoDup (map line_key lines) /\
    forall hs w cs c, In (hs, w, cs, c) lines <-> exists s i, codes (lenc m) hs s /\ enc_find w (lenc m) = Some i /\ In (s ++ [i], c) l /\ Qle_bool c 0 = false /\ cs = vs s (ltab m).
Proof.
  intros m l We Wt. induction l as [|[k c] l IH]; intros ND D.
  - exists []. split; auto. split; [constructor|]. intros. split; [intros []|]. intros (s & i & _ & _ & [] & _).
  - inversion ND as [|? ? NI ND']; subst. destruct IH as (lines & E & NDl & H); auto.
    { intros s i c' I. apply D. now right. }
    cbn [print_loop fst]. destruct ((0 <? length k) && negb (Qle_bool c 0)) eqn:G.
    + apply andb_true_iff in G. destruct G as [G1 G2]. apply Nat.ltb_lt in G1. apply negb_true_iff in G2.
      destruct k as [|a k0] using rev_ind; [cbn in G1; lia|]. clear IHk0. rewrite removelast_last, last_last.
      destruct (D k0 a c (or_introl eq_refl) G2) as (hs & w & C & Ew).
      rewrite (codes_back _ _ _ _ We C). cbn [obind]. pose proof (proj1 (proj1 (proj2 We) w a) Ew) as Ew'. rewrite Ew'. cbn [obind]. rewrite (cSrc_val k0 (ltab m) Wt). cbn [obind].
      rewrite E. cbn [obind]. eexists. split; [reflexivity|]. split.
      * cbn [map]. constructor; auto. intro X. apply in_map_iff in X. destruct X as ([[[hs' w'] cs'] c'] & K & I).
        unfold line_key in K. cbn [fst snd] in K. injection K as -> ->. apply H in I. destruct I as (s & i & C' & Ew2 & I & _).
        apply NI. assert (s = k0) by (eapply (proj1 (codes_same _ _ _ _ _ _ We C' C)); auto). assert (i = a) by congruence. subst.
        apply in_map_iff. exists (k0 ++ [a], c'). auto.
      * intros hs' w' cs' c'. cbn [In]. rewrite H. split.
        -- intros [X|(s & i & X1 & X2 & X3 & X4)].
           ++ injection X as <- <- <- <-. exists k0, a. repeat (split; auto).
           ++ exists s, i. repeat (split; auto).
        -- intros (s & i & X1 & X2 & [X3|X3] & X4 & X5).
           ++ left. injection X3 as X3 ->. apply app_inj_tail in X3. destruct X3 as [-> ->]. subst cs'.
              rewrite (proj2 (codes_same _ _ _ _ _ _ We C X1) eq_refl). rewrite (enc_inj _ _ _ _ _ We Ew X2). reflexivity.
           ++ right. exists s, i. repeat (split; auto).
    + exists lines. split; auto. split; auto. intros hs w cs c'. rewrite H. split.
      * intros (s & i & X1 & X2 & X3 & X4). exists s, i. repeat (split; auto). now right.
      * intros (s & i & X1 & X2 & [X3|X3] & X4 & X5).
        -- injection X3 as -> ->. rewrite app_length in G. cbn [length] in G. rewrite X4 in G. rewrite andb_true_r in G. apply Nat.ltb_ge in G. lia.
        -- exists s, i. repeat (split; auto).
Qed.

Lemma walk_val : forall p t d, twfn t -> trie_walk Nat.ltb p t = Some (Some d) -> val p t = d.
Proof. intros p t d W E. unfold val. now rewrite E. Qed.
Lemma val_walk : forall p t c, twfn t -> val p t = c -> c <> 0%Q -> trie_walk Nat.ltb p t = Some (Some c).
Proof.
  intros p t c W V N. destruct (walk_total Nat.ltb nat_st p t W) as [r E]. unfold val in V. rewrite E in V. rewrite E.
  destruct r as [d|]; [now subst|congruence].
Qed.

Lemma lm_print_ok : forall ops iops m, lmrel tab0 ops iops m ->
  exists lines, lm_print m = Some lines /\ NoDup (map line_key lines) /\
    forall hs w cs c, In (hs, w, cs, c) lines <-> (Qle_bool c 0 = false /\ c = ngram_after string_dec hs w ops 0 /\ cs = hist_after string_dec hs ops 0).
Proof.
  intros ops iops m R. pose proof R as (We & T & F). destruct (tab_run_ok iops tab0 tab0_wf) as (t & E & Wt & A & B). assert (t = ltab m) by congruence. subst t.
  unfold lm_print. rewrite entries_post. cbn [obind].
  destruct (entries_exact Nat.ltb nat_st (tst (ltab m)) (post [] (tst (ltab m))) (proj1 Wt) (entries_post _)) as [[ND X] _].
  destruct (print_loop_ok m (post [] (tst (ltab m))) We Wt ND) as (lines & Ep & NDl & H).
  { intros s i c I G. apply X in I. apply (touched_decodes tab0 ops iops m s i c tab0_wf R); [intros; apply tab0_val|apply walk_val; [apply Wt|exact I]|].
    intros ->. discriminate. }
  exists lines. split; auto. split; auto. intros hs w cs c. rewrite H. split.
  - intros (s & i & C & Ew & I & G & ->). apply X in I. split; auto. apply walk_val in I; [|apply Wt]. change (val (s ++ [i]) (tst (ltab m))) with (vst s i (ltab m)) in I.
    rewrite A in I. rewrite B. rewrite (proj1 (tab0_val s i)) in I. rewrite (proj2 (tab0_val s i)). split.
    + rewrite <- I. symmetry. eapply after_enc; eauto.
    + symmetry. eapply hist_enc; eauto.
  - intros (G & Ec & Ecs). destruct (counts_str ops iops m R) as [N1 N2]. specialize (N1 hs w). specialize (N2 hs). rewrite <- Ec in N1. rewrite <- Ecs in N2.
    unfold cNgramStr, HighTrg_to_Trg in N1. unfold cHistStr in N2. destruct (HighSrc_to_Src hs (lenc m)) as [[] s] eqn:Hs; [|injection N1 as <-; discriminate].
    destruct (enc_find w (lenc m)) as [i|] eqn:Ew; [|injection N1 as <-; discriminate].
    apply HighSrc_true in Hs. exists s, i. split; auto. split; auto. rewrite cSrcTrg_val in N1 by auto. rewrite cSrc_val in N2 by auto. injection N1 as N1. injection N2 as N2.
    split; [|auto]. apply X. apply val_walk; [apply Wt|exact N1|]. intros ->. discriminate.
Qed.

(** ** loading *)
Lemma load_lines_run : forall lines m, load_lines (map Some lines) m = lm_run (map line_op lines) m.
Proof. induction lines as [|[[[hs w] cs] c] lines IH]; intro m; auto. cbn [map load_lines line_op lm_run lm_op_str]. destruct (addTableEntryHigh hs w cs c m); cbn [obind]; auto. Qed.

Lemma load_ok : forall lines m k, encwf (lenc m) -> (forall x, In x k -> known (lenc m) x) -> no_new_repeats string_dec k (map line_op lines) ->
  exists m' iops, lm_load (map Some lines) m = Some m' /\ lmrel tab0 (map line_op lines) iops m' /\ lorder m' = load_order (map Some lines) (lorder m).
Proof.
  intros lines m k W K C. unfold lm_load. rewrite load_lines_run.
  destruct (lm_run_ok (map line_op lines) tab0 [] [] (mklm (lenc m) tab0 (lorder m)) k tab0_wf) as (m' & iops & E & R & _ & _ & O); auto.
  { split; [exact W|split; [reflexivity|constructor]]. }
  rewrite E. cbn [obind]. eexists. exists iops. split; [reflexivity|]. split; [exact R|reflexivity].
Qed.

Lemma sets_after : forall lines hs w cur, NoDup (map line_key lines) ->
  (forall cs c, In (hs, w, cs, c) lines -> ngram_after string_dec hs w (map line_op lines) cur = c) /\
  ((forall cs c, ~ In (hs, w, cs, c) lines) -> ngram_after string_dec hs w (map line_op lines) cur = cur).
Proof.
  induction lines as [|[[[h' w'] cs'] c'] lines IH]; intros hs w cur ND; [split; [intros cs c []|auto]|].
  cbn [map] in *. inversion ND as [|? ? NI ND']; subst. cbn [line_op ngram_after]. split.
  - intros cs c [X|I].
    + injection X as -> -> -> ->. unfold same. destruct (list_eq_dec string_dec hs hs); [|congruence]. destruct (string_dec w w); [|congruence].
      apply IH; auto. intros cs0 c0 I. apply NI. apply in_map_iff. exists (hs, w, cs0, c0). auto.
    + destruct (same string_dec hs h' w w') eqn:S.
      * apply same_true in S. destruct S as [-> ->]. exfalso. apply NI. apply in_map_iff. exists (h', w', cs, c). auto.
      * eapply IH; eauto.
  - intro N. destruct (same string_dec hs h' w w') eqn:S.
    + apply same_true in S. destruct S as [-> ->]. exfalso. eapply N. now left.
    + apply IH; auto. intros cs c I. eapply N. right. eauto.
Qed.
Lemma sets_hist : forall lines hs cur (F : list string -> Q), (forall h w cs c, In (h, w, cs, c) lines -> cs = F h) ->
  ((exists w cs c, In (hs, w, cs, c) lines) -> hist_after string_dec hs (map line_op lines) cur = F hs) /\
  ((forall w cs c, ~ In (hs, w, cs, c) lines) -> hist_after string_dec hs (map line_op lines) cur = cur).
Proof.
  intros lines hs cur F. revert cur. induction lines as [|[[[h' w'] cs'] c'] lines IH]; intros cur H; [split; [intros (w & cs & c & [])|auto]|].
  assert (H' : forall h w cs c, In (h, w, cs, c) lines -> cs = F h) by (intros; eapply H; right; eauto).
  cbn [map line_op hist_after]. unfold same_hist. split.
  - intros (w & cs & c & I). destruct (list_eq_dec string_dec hs h') as [->|NE].
    + rewrite (H h' w' cs' c' (or_introl eq_refl)).
      destruct (in_dec (list_eq_dec string_dec) h' (map (fun l => fst (line_key l)) lines)) as [I'|I'].
      * apply (proj1 (IH (F h') H')). apply in_map_iff in I'. destruct I' as ([[[h2 w2] cs2] c2] & Eh & I'). cbn in Eh. subst h2. eauto.
      * apply (proj2 (IH (F h') H')). intros w2 cs2 c2 I2. apply I'. apply in_map_iff. exists (h', w2, cs2, c2). auto.
    + apply IH; auto. destruct I as [X|I]; [injection X as X; congruence|eauto].
  - intro N. destruct (list_eq_dec string_dec hs h') as [->|NE]; [exfalso; eapply N; now left|]. apply IH; auto. intros w cs c I. eapply N. right. eauto.
Qed.

Theorem print_load : forall evs iops m lines m1 k, nonneg_counts evs -> lmrel tab0 (incrs evs) iops m -> lm_print m = Some lines ->
  encwf (lenc m1) -> (forall x, In x k -> known (lenc m1) x) -> no_new_repeats string_dec k (map line_op lines) ->
  exists m', lm_load (map Some lines) m1 = Some m' /\
    (forall h w, exists a b, cNgramStr w h m = Some a /\ cNgramStr w h m' = Some b /\ (a == b)%Q) /\
    (forall h, exists a b, cHistStr h m = Some a /\ cHistStr h m' = Some b /\ (a == b)%Q).
Proof.
  intros evs iops m lines m1 k NN R Ep W K C. destruct (load_ok lines m1 k W K C) as (m' & iops' & El & R' & _). exists m'. split; auto.
  destruct (counts_str _ _ _ R) as [N1 N2]. destruct (counts_str _ _ _ R') as [N1' N2'].
  destruct (lm_print_ok _ _ _ R) as (lines' & Ep' & ND & H). assert (lines' = lines) by congruence. subst lines'.
  assert (Z : forall h w c, c = ngram_after string_dec h w (incrs evs) 0 -> Qle_bool c 0 = true -> (c == 0)%Q).
  { intros h w c -> G. apply Qle_bool_iff in G. rewrite ngram_after_incrs in *. pose proof (total_nonneg string_dec h w evs NN). lra. }
  split.
  - intros h w. rewrite N1, N1'. eexists. eexists. split; [reflexivity|]. split; [reflexivity|].
    destruct (sets_after lines h w 0%Q ND) as [S1 S2]. remember (ngram_after string_dec h w (incrs evs) 0) as c eqn:Ec.
    destruct (Qle_bool c 0) eqn:G.
    + rewrite S2; [eapply Z; eauto|]. intros cs c' I. apply H in I. destruct I as (G' & Ec' & _). congruence.
    + rewrite (S1 (hist_after string_dec h (incrs evs) 0) c); [reflexivity|]. apply H. auto.
  - intro h. rewrite N2, N2'. eexists. eexists. split; [reflexivity|]. split; [reflexivity|].
    destruct (sets_hist lines h 0%Q (fun h => hist_after string_dec h (incrs evs) 0)) as [S1 S2].
    { intros h0 w cs c I. apply H in I. apply I. }
    destruct (in_dec (list_eq_dec string_dec) h (map (fun l => fst (line_key l)) lines)) as [I|I].
    + rewrite S1; [reflexivity|]. apply in_map_iff in I. destruct I as ([[[h2 w2] cs2] c2] & Eh & I). cbn in Eh. subst h2. eauto.
    + assert (NL : forall w cs c, ~ In (h, w, cs, c) lines). { intros w cs c X. apply I. apply in_map_iff. exists (h, w, cs, c). auto. }
      rewrite S2 by exact NL. rewrite hist_after_incrs.
      rewrite (hist_is_sum string_dec h (nodup string_dec (map (fun e => snd (fst e)) evs)) evs (NoDup_nodup _ _)).
      * rewrite qsum_zero; [ring|]. intros w _. assert (E := ngram_after_incrs string_dec h w evs 0).
        assert (E0 : (ngram_after string_dec h w (incrs evs) 0 == 0)%Q).
        { destruct (Qle_bool (ngram_after string_dec h w (incrs evs) 0) 0) eqn:G; [eapply Z; eauto|]. exfalso. eapply NL. apply H. eauto. }
        lra.
      * intros w c I2. apply nodup_In. apply in_map_iff. exists (h, w, c). auto.
Qed.
