(** Language-model heuristics C143, context-dependent completion C144, interpolated phrase probabilities C145, tuning of interpolation weights C146. *)
From Coq Require Import Ascii String Reals ZArith QArith Qabs List Bool Arith Lia Lra Lqa.
From Verif Require Import TextSpec GfmtModel GfmtText DecSpec DecModel FeatSpec FeatModel FeatProofs MathModel LogNum DhsSpec DhsModel TrieSpec TrieModel PredProofs TuneModel TuneSpec TuneProofs PropertiesTrie PropertiesWgf PropertiesDhs.
Import ListNotations.
Local Open Scope nat_scope.

(** ** C143: scores of a sentence and the heuristics made from them *)
(** the vector has the weighted log-probability of every non-empty beginning, and at its end, as the value returned, that of the sentence with its end *)
Theorem C143_sentence : forall f ws, let '(v, cum) := scoreTrgSentence f ws in
  length cum = S (length ws) /\ (forall i, i < length ws -> nth_error cum i = Some (lm_after f [] (firstn (S i) ws))) /\
  nth_error cum (length ws) = Some v /\ v = (lm_after f [] ws + l_end f (history (l_bos f) ws))%Z.
Proof.
  intros f ws. rewrite sts_total. rewrite app_length, cums_len. cbn [length]. split; [lia|]. split; [|split; [|reflexivity]].
  - intros i Hi. rewrite nth_error_app1 by (rewrite cums_len; lia). now apply cums_nth.
  - rewrite nth_error_app2 by (rewrite cums_len; lia). now rewrite cums_len, Nat.sub_diag.
Qed.
Print Assumptions C143_sentence.
(** the value for a partial translation of [len] words is the score of what is left of the reference, computed or from the cache; together with the words done it is constant *)
Theorem C143_reference : forall fs ref len, fs <> [] -> len <= length ref ->
  let '(cache, v) := calcRefLmHeurScore fs ref len [] in
  v = Some (remaining fs ref len) /\ calcRefLmHeurScore fs ref len cache = (cache, v) /\
  (forall len', len' <= length ref -> snd (calcRefLmHeurScore fs ref len' cache) = Some (remaining fs ref len')) /\
  (achieved fs ref len + remaining fs ref len = remaining fs ref 0)%Z.
Proof.
  intros fs ref len N H. unfold calcRefLmHeurScore. cbn [fill snd]. destruct (heur_vec_ok fs ref N) as [L _].
  assert (F : fill fs ref (heur_vec fs ref) = heur_vec fs ref) by (destruct (heur_vec fs ref); [discriminate|reflexivity]). rewrite F.
  split; [now apply heur_value_ok|]. split; [reflexivity|]. split; [intros; now apply heur_value_ok|].
  unfold achieved, remaining. clear N L F. induction fs as [|f fs IH]; [reflexivity|]. unfold total in *. cbn [fold_right].
  enough (lm_after f [] (firstn len ref) + lm_after f (firstn len ref) (skipn len ref) = lm_after f (firstn 0 ref) (skipn 0 ref))%Z by lia.
  cbn [firstn skipn]. rewrite <- (firstn_skipn len ref) at 4. unfold lm_after. rewrite lm_score_app. change (history (l_bos f) []) with (l_bos f). lia.
Qed.
Print Assumptions C143_reference.
(** with a prefix: the same as long as the prefix is not covered, nothing from then on *)
Theorem C143_prefix : forall fs pref len, fs <> [] ->
  let '(cache, v) := calcPrefLmHeurScore fs pref len [] in
  v = Some (if len <? length pref then remaining fs pref len else 0%Z) /\
  (forall len', snd (calcPrefLmHeurScore fs pref len' cache) = Some (if len' <? length pref then remaining fs pref len' else 0%Z)).
Proof.
  intros fs pref len N. unfold calcPrefLmHeurScore. cbn [fill snd]. destruct (heur_vec_ok fs pref N) as [L _].
  assert (F : fill fs pref (heur_vec fs pref) = heur_vec fs pref) by (destruct (heur_vec fs pref); [discriminate|reflexivity]). rewrite F.
  assert (K : forall k, (if length pref <=? k then Some 0%Z else heur_value (heur_vec fs pref) k) = Some (if k <? length pref then remaining fs pref k else 0%Z)).
  { intro k. destruct (length pref <=? k) eqn:A; destruct (k <? length pref) eqn:B; [apply Nat.leb_le in A; apply Nat.ltb_lt in B; lia|reflexivity| |apply Nat.leb_gt in A; apply Nat.ltb_ge in B; lia].
    apply Nat.ltb_lt in B. apply heur_value_ok; [exact N|lia]. }
  split; [apply K|]. intro; apply K.
Qed.
Print Assumptions C143_prefix.
(** refuted: the end of the sentence is not weighted, as it is in the score of a hypothesis *)
Theorem C143_weighted_end_refuted : exists f ws, fst (scoreTrgSentence f ws) <> (l_w f * (lm_score (l_lp f) (l_bos f) ws + l_end f (history (l_bos f) ws)))%Z.
Proof. exists (mklmf [0] (fun _ _ => -1)%Z (fun _ => -1)%Z 3%Z), [5]. vm_compute. discriminate. Qed.
Print Assumptions C143_weighted_end_refuted.
(** refuted: without language model features the heuristics read the last element of an empty vector *)
Theorem C143_no_features_refuted : forall ref len, snd (calcRefLmHeurScore [] ref len []) = None /\ (len < length ref -> snd (calcPrefLmHeurScore [] ref len []) = None).
Proof. intros ref len. split; [reflexivity|]. intro H. unfold calcPrefLmHeurScore. cbn [snd]. replace (length ref <=? len) with false by (symmetry; apply Nat.leb_gt; lia). reflexivity. Qed.
Print Assumptions C143_no_features_refuted.
(** refuted: a partial translation longer than the reference reads outside the vector *)
Theorem C143_longer_refuted : forall fs ref, fs <> [] -> forall len, length ref + 1 < len -> snd (calcRefLmHeurScore fs ref len []) = None.
Proof.
  intros fs ref N len H. unfold calcRefLmHeurScore. cbn [fill snd]. destruct (heur_vec_ok fs ref N) as [L _]. unfold heur_value.
  destruct (heur_vec fs ref) as [|x v] eqn:E; [reflexivity|]. destruct len as [|k]; [lia|]. replace (nth_error (x :: v) k) with (@None Z); [reflexivity|].
  symmetry. apply nth_error_None. lia.
Qed.
Print Assumptions C143_longer_refuted.
(** refuted: the value for a prefix counts an end of sentence after it, though more words may follow *)
Theorem C143_prefix_end_refuted : exists f pref, snd (calcPrefLmHeurScore [f] pref 0 []) <> Some (lm_after f [] pref).
Proof. exists (mklmf [0] (fun _ _ => -1)%Z (fun _ => -1)%Z 1%Z), [5]. vm_compute. discriminate. Qed.
Print Assumptions C143_prefix_end_refuted.

(** ** C144: completion of a word given the words before it *)
Definition after_words (f : lmf) (sw : str -> nat) (hist : list str) (w : str) : Z := l_lp f (history (l_bos f) (map sw hist)) (sw w).
(** of the words of the suffix list the most probable one is taken, the first one of equals; nothing (0 and no suffix) if there are none *)
Theorem C144_best : forall f sw p hist input l, getSuffixList p input = Some l ->
  exists r, getBestSuffixGivenHist f sw p hist input = Some r /\
  ((r = (0, []) /\ forall n s, In (n, s) l -> (after_words f sw hist (input ++ s) <= - FLT_MAX)%Z) \/
   exists a b, l = a ++ r :: b /\ (- FLT_MAX < after_words f sw hist (input ++ snd r))%Z /\
     (forall e, In e a -> (after_words f sw hist (input ++ snd e) < after_words f sw hist (input ++ snd r))%Z) /\
     (forall e, In e b -> (after_words f sw hist (input ++ snd e) <= after_words f sw hist (input ++ snd r))%Z)).
Proof.
  intros f sw p hist input l E. unfold getBestSuffixGivenHist. rewrite E. destruct l as [|e l].
  - eexists. split; [reflexivity|]. left. split; [reflexivity|intros ? ? []].
  - eexists. split; [reflexivity|]. rewrite hist_fold. destruct (best_ok f sw (history (l_bos f) (map sw hist)) input (e :: l) (0, []) (- FLT_MAX)%Z) as [[B H]|(a & n & s & b & B1 & B2 & B3 & A & B)].
    + left. rewrite B. split; [reflexivity|exact H].
    + right. rewrite B2. exists a, b. split; [exact B1|]. split; [exact B3|]. split; intros [m t] K; [apply (A m t K)|apply (B m t K)].
Qed.
Print Assumptions C144_best.
(** with a trained predictor: what is proposed makes a known word, with its number of occurrences, and no known word of a different number of occurrences
    that is the only one with that number is more probable *)
Theorem C144_known : forall sents R more f sw hist input, Forall (Forall (fun w => w <> [])) sents -> Forall (Forall (fun w => w <> [])) more -> input <> [] ->
  let count s := times (list_eq_dec ascii_dec) (input ++ s) (known sents R more) in
  (forall w, (- FLT_MAX < after_words f sw hist w)%Z) ->
  exists n s, getBestSuffixGivenHist f sw (trained sents R more) hist input = Some (n, s) /\
  ((forall t, count t = 0) /\ n = 0 /\ s = [] \/
   n = count s /\ 0 < n /\ forall t, 0 < count t -> (forall u, count u = count t -> u = t) -> (after_words f sw hist (input ++ t) <= after_words f sw hist (input ++ s))%Z).
Proof.
  intros sents R more f sw hist input F1 F2 N count P. destruct (C137_suffixes sents R more input F1 F2 N) as (l & E & D & Q & C).
  destruct (C144_best f sw _ hist input l E) as [[n s] [G H]]. exists n, s. split; [exact G|]. destruct H as [[EQ H]|(a & b & EL & _ & A & B)].
  - left. injection EQ as -> ->. split; [|auto]. intro t. destruct (count t) eqn:Z0; [reflexivity|]. exfalso. destruct (C t) as [s' I'].
    + fold (count t). lia.
    + apply H in I'. specialize (P (input ++ s')). lia.
  - right. destruct (Q n s) as [Q1 Q2]; [rewrite EL; apply in_or_app; right; now left|]. split; [exact Q1|]. split; [exact Q2|]. intros t T U.
    destruct (C t T) as [s' I']. destruct (Q _ _ I') as [Q3 _]. assert (s' = t) by (apply U; unfold count; lia). subst s'. rewrite EL in I'. apply in_app_or in I'. cbn [snd] in A, B.
    destruct I' as [K|[K|K]]; [specialize (A _ K); cbn [snd] in A; lia|injection K as _ ->; lia|specialize (B _ K); cbn [snd] in B; lia].
Qed.
Print Assumptions C144_known.
(** refuted: of several known words with the same number of occurrences only one is looked at, so a more probable word is not proposed *)
Definition sw_len (w : str) : nat := match rev w with c :: _ => nat_of_ascii c | [] => 0 end.
Theorem C144_all_known_refuted : exists sents f sw input n s t, (forall w, (- FLT_MAX < after_words f sw [] w)%Z) /\
  getBestSuffixGivenHist f sw (trained sents 0 []) [] input = Some (n, s) /\ In (input ++ t) (concat sents) /\ (after_words f sw [] (input ++ s) < after_words f sw [] (input ++ t))%Z.
Proof.
  exists [[T "cca"; T "ccb"]], (mklmf [] (fun _ w => if Nat.eqb w 97 then -1 else -2)%Z (fun _ => 0%Z) 1%Z), sw_len, (T "cc"), 1, (T "b"), (T "a"). split.
  - intro w. unfold after_words. cbn [l_lp]. destruct (Nat.eqb (sw_len w) 97); vm_compute; reflexivity.
  - split; [vm_compute; reflexivity|]. split; [cbn; auto|]. vm_compute. reflexivity.
Qed.
Print Assumptions C144_all_known_refuted.
(** the last two words of the text (what expandLastWord passes) are as good as all of them for models whose state has at most two words *)
Theorem C144_two_words : forall f sw (ws : list str) w, length (l_bos f) <= 2 -> 2 <= length ws -> after_words f sw (skipn (length ws - 2) ws) w = after_words f sw ws w.
Proof.
  intros f sw ws w L H. unfold after_words. f_equal. rewrite <- (firstn_skipn (length ws - 2) ws) at 3. rewrite map_app, history_app.
  assert (K : length (skipn (length ws - 2) ws) = 2) by (rewrite skipn_length; lia). destruct (skipn (length ws - 2) ws) as [|u [|v [|? ?]]]; try discriminate.
  generalize (map sw (firstn (length ws - 2) ws)). intro pre. assert (G : length (history (l_bos f) pre) = length (l_bos f)).
  { generalize (l_bos f). induction pre as [|x pre IH]; intro b; [reflexivity|]. cbn [history fold_left]. change (fold_left shift pre (shift b x)) with (history (shift b x) pre). rewrite IH. destruct b; cbn; [reflexivity|]. rewrite app_length. cbn. lia. }
  cbn [map history fold_left]. destruct (history (l_bos f) pre) as [|a [|b [|? ?]]]; destruct (l_bos f) as [|a' [|b' [|? ?]]]; cbn in *; try discriminate; try lia; reflexivity.
Qed.
Print Assumptions C144_two_words.
(** refuted: they are not for a model with three words in its state (4-grams): the state begins with the marks of the beginning of a sentence *)
Theorem C144_four_grams_refuted : exists f sw ws w, length (l_bos f) = 3 /\ length ws = 3 /\ after_words f sw (skipn (length ws - 2) ws) w <> after_words f sw ws w.
Proof. exists (mklmf [1; 1; 1] (fun h _ => - Z.of_nat (nth 0 h O))%Z (fun _ => 0%Z) 1%Z), (@length ascii), [T "aaaaa"; T "b"; T "c"], (T "d"). repeat split. vm_compute. discriminate. Qed.
Print Assumptions C144_four_grams_refuted.

(** ** C145: interpolated phrase probabilities *)
(** weight 1: the phrase table alone *)
Theorem C145_one : forall a b, interpScore 1 a b = a.
Proof. intros a b. unfold interpScore. destruct (Req_EM_T 1 1); [reflexivity|congruence]. Qed.
Print Assumptions C145_one.
(** below 1: the logarithm of the interpolated probability, when the weighted phrase table probability is above 1e-10 *)
Theorem C145_interpolation : forall lambda p q, (0 < lambda < 1)%R -> (/ 10000000000 < lambda * p)%R -> (0 <= p)%R -> (0 <= q)%R ->
  exists s, interpScore lambda (lgln p) (lgln q) = Fin s /\ exp s = (lambda * p + (1 - lambda) * q)%R.
Proof. exact interp_main. Qed.
Print Assumptions C145_interpolation.
(** for every weight in [0,1) and all probabilities, a number, within 1e-10 of the interpolated probability, also when both probabilities are 0 *)
Theorem C145_close : forall lambda p q, (0 <= lambda < 1)%R -> (0 <= p)%R -> (0 <= q)%R ->
  exists s, interpScore lambda (lgln p) (lgln q) = Fin s /\ (Rabs (exp s - (lambda * p + (1 - lambda) * q)) <= / 10000000000)%R.
Proof.
  intros lambda p q L P Q. destruct (Rle_dec (lambda * p) PHRASE_PROB_SMOOTH) as [C|C].
  - destruct (interp_smooth lambda p q L C P Q) as [s [E1 E2]]. exists s. split; [exact E1|]. rewrite E2. pose proof exp_small as ES. pose proof (exp_pos FEAT_LGPROB_SMOOTH) as EP.
    assert (0 <= lambda * p)%R by (apply Rmult_le_pos; Lra.lra). fold PHRASE_PROB_SMOOTH. apply Rabs_le. Lra.lra.
  - assert (L' : (0 < lambda < 1)%R) by (destruct (Req_dec lambda 0) as [->|]; [unfold PHRASE_PROB_SMOOTH in C; exfalso; apply C; rewrite Rmult_0_l; Lra.lra|Lra.lra]).
    destruct (interp_main lambda p q L') as [s [E1 E2]]; [Lra.lra..|]. exists s. split; [exact E1|]. rewrite E2. replace (_ - _)%R with 0%R by Lra.lra. rewrite Rabs_R0. Lra.lra.
Qed.
Print Assumptions C145_close.
(** refuted: set_lambda takes any weight; outside [0,1] every phrase pair gets not-a-number *)
Theorem C145_range_refuted : forall lambda a b, (lambda < 0 \/ 1 < lambda)%R -> interpScore lambda a b = NaN.
Proof.
  intros lambda a b [H|H]; unfold interpScore; destruct (Req_EM_T lambda 1); try Lra.lra.
  - rewrite (lgln_neg lambda H). reflexivity.
  - rewrite (lgln_neg (1 - lambda)) by Lra.lra. cbn [lgadd]. destruct (if lgleb _ _ then _ else _); reflexivity.
Qed.
Print Assumptions C145_range_refuted.
(** the perplexity used for tuning is minus the average, over all pairs of all sentences, of the two scores *)
Theorem C145_perplexity : forall (P : Type) (direct inverse : P -> Q) (pairs : list (list P)), concat pairs <> [] ->
  exists v, phraseModelPerplexity direct inverse pairs = Some v /\
  (v == - (qsum (map (fun p => (direct p + inverse p)%Q) (concat pairs)) / inject_Z (Z.of_nat (length (concat pairs)))))%Q.
Proof.
  intros P d i pairs N. unfold phraseModelPerplexity. rewrite len_outer. cbn [Nat.add].
  destruct (length (concat pairs) =? 0) eqn:E; [apply Nat.eqb_eq in E; destruct (concat pairs); [congruence|discriminate]|].
  eexists. split; [reflexivity|]. rewrite (ll_outer (fun p => (d p + i p)%Q)). apply Nat.eqb_neq in E. field. intro Z. change 0%Q with (inject_Z 0) in Z. apply (proj1 (inject_Z_injective _ _)) in Z. lia.
Qed.
Print Assumptions C145_perplexity.
(** refuted: with no pair it is 0/0 *)
Theorem C145_no_pairs_refuted : forall (P : Type) (direct inverse : P -> Q) n, phraseModelPerplexity direct inverse (repeat [] n) = None.
Proof. intros P d i n. unfold phraseModelPerplexity. rewrite len_outer. replace (concat (repeat [] n)) with (@nil P); [reflexivity|]. induction n; [reflexivity|]. cbn. exact IHn. Qed.
Print Assumptions C145_no_pairs_refuted.

(** ** C146: tuning of the weights *)
(** it ends, within the bound of the minimizer, whatever the evaluations give *)
Theorem C146_ends : forall fuel max_it ftol pn qn perp init, length init + 2 + 5 * max_it < fuel -> exists r, updateWeights fuel max_it ftol pn qn perp init = Some r.
Proof.
  intros fuel max_it ftol pn qn perp init H. unfold updateWeights. apply (tune_ends _ perp init (length init + 2 + 5 * max_it)) with (xs := []); [|constructor|cbn; lia].
  intros im xs F. apply (C127_terminates max_it (length init) ftol pn qn init (obj perp) im xs F).
Qed.
Print Assumptions C146_ends.
(** not successful: the initial weights are back.  Successful: the weights were evaluated, and of all the points the minimizer asked for, the
    initial weights among them, none has a smaller objective in the file *)
Theorem C146_result : forall fuel max_it ftol pn qn perp init ok x, updateWeights fuel max_it ftol pn qn perp init = Some (ok, x) ->
  (ok = false -> x = init) /\
  (ok = true -> exists im xs, follows (tool max_it (length init) ftol pn qn init) (obj perp) im xs /\ In x xs /\ (forall z, In z xs -> (obj perp x <= obj perp z)%Q) /\ (obj perp x <= obj perp init)%Q).
Proof.
  intros fuel max_it ftol pn qn perp init ok x H. unfold updateWeights in H.
  destruct (tune_sound _ perp init fuel [] [] _ (fol_nil _ _) H) as [(im & xs & x' & y & o & F & TR & R & _)|(im & xs & x' & _ & _ & _ & R)].
  - destruct (C128_best max_it (length init) ftol pn qn init (obj perp) im xs x' y o F TR) as (Y & I1 & M & S0). destruct o; injection R as -> ->; split; try discriminate; auto.
    intros _. exists im, xs. split; [exact F|]. split; [exact I1|]. subst y. split; [exact M|]. now apply S0.
  - injection R as -> ->. split; [auto|discriminate].
Qed.
Print Assumptions C146_result.
(** when the initial weights are in [0,1) and their perplexity is not near the largest double, so are the final ones, and their perplexity is defined and at most that of
    the initial ones, up to the six digits of the file *)
Theorem C146_better : forall fuel max_it ftol pn qn perp init x v0, updateWeights fuel max_it ftol pn qn perp init = Some (true, x) ->
  Forall (fun a => 0 <= a < 1)%Q init -> perp init = Some v0 -> (0 <= v0)%Q -> (2 * v0 <= DBL_MAX)%Q -> (forall z v, perp z = Some v -> 0 <= v)%Q -> (forall z, perp z <> None) ->
  Forall (fun a => 0 <= a < 1)%Q x /\ exists v, perp x = Some v /\ (v <= (100002 # 100000) * v0)%Q.
Proof.
  intros fuel max_it ftol pn qn perp init x v0 H I0 E0 P0 M0 PP PD. destruct (C146_result _ _ _ _ _ _ _ _ _ H) as [_ K]. destruct (K eq_refl) as (im & xs & F & I1 & M & B).
  assert (WOK : forall w, weights_ok w = true <-> Forall (fun a => 0 <= a < 1)%Q w).
  { intro w. unfold weights_ok. rewrite forallb_forall, Forall_forall. split; intros G a A; specialize (G a A).
    - apply andb_prop in G. destruct G as [G1 G2]. apply Qle_bool_iff in G1. split; [exact G1|]. apply Qnot_le_lt. intro C. apply Qle_bool_iff in C. rewrite C in G2. discriminate.
    - destruct G as [G1 G2]. apply andb_true_intro. split; [now apply Qle_bool_iff|]. destruct (Qle_bool 1 a) eqn:C; [apply Qle_bool_iff in C; exfalso; apply (Qlt_not_le _ _ G2 C)|reflexivity]. }
  assert (WR : forall v, (0 <= v)%Q -> ((1 - (5 # 1000000)) * v <= written v /\ written v <= (1 + (5 # 1000000)) * v)%Q).
  { intros v V. unfold written. destruct (C111_printed_numbers v) as (y & E & A & _). rewrite E. rewrite (Qabs_pos v V) in A. apply Qabs_Qle_condition in A. destruct A as [A1 A2]. split; lra. }
  assert (O0 : obj perp init = written v0) by (unfold obj, dhs_eval; rewrite (proj2 (WOK init) I0), E0; reflexivity).
  assert (DM : (1 <= DBL_MAX)%Q) by (apply Qle_bool_iff; vm_compute; reflexivity).
  rewrite O0 in B. destruct (weights_ok x) eqn:W.
  - split; [now apply WOK|]. destruct (perp x) as [v|] eqn:PX; [|now destruct (PD x)]. exists v. split; [reflexivity|]. unfold obj, dhs_eval in B. rewrite W, PX in B.
    pose proof (PP _ _ PX) as V. destruct (WR v V) as [W1 _]. destruct (WR v0 P0) as [_ W2]. clear - B W1 W2 V P0. lra.
  - exfalso. unfold obj, dhs_eval in B. rewrite W in B. destruct (WR v0 P0) as [_ W2]. destruct (WR DBL_MAX) as [W1 _]; [lra|]. set (d := DBL_MAX) in *. clearbody d. clear - B W1 W2 M0 P0 DM. lra.
Qed.
Print Assumptions C146_better.
(** refuted: weights that are 1 (the value with which only the phrase table counts) are declared optimal without ever looking at the corpus *)
Theorem C146_one_refuted : forall perp, updateWeights 30 500 (1 # 1000) (966 # 1000) (259 # 1000) perp [1; 1]%Q = Some (true, [1; 1]%Q).
Proof. intro perp. vm_compute. reflexivity. Qed.
Print Assumptions C146_one_refuted.

(** ** concrete cases *)
Definition lm1 := mklmf [0] (fun h w => - Z.of_nat (nth 0 h O + w))%Z (fun h => - Z.of_nat (nth 0 h O))%Z 2%Z.
Example C143_nonvacuous : scoreTrgSentence lm1 [3; 4] = (-24, [-6; -20; -24])%Z /\ snd (calcRefLmHeurScore [lm1; lm1] [3; 4] 1 []) = Some (-36)%Z /\ remaining [lm1; lm1] [3; 4] 1 = (-36)%Z /\ snd (calcPrefLmHeurScore [lm1] [3; 4] 2 []) = Some 0%Z.
Proof. vm_compute. repeat split. Qed.
Example C144_nonvacuous : getBestSuffixGivenHist (mklmf [1] (fun h w => if Nat.eqb (nth 0 h O) 97 && Nat.eqb w 100 then -1 else -5)%Z (fun _ => 0%Z) 1%Z) sw_len (trained [[T "abc"; T "abc"; T "abd"]] 0 []) [T "a"] (T "ab") = Some (1, T "d") /\
  getBestSuffixGivenHist (mklmf [1] (fun h w => if Nat.eqb (nth 0 h O) 97 && Nat.eqb w 100 then -1 else -5)%Z (fun _ => 0%Z) 1%Z) sw_len (trained [[T "abc"; T "abc"; T "abd"]] 0 []) [T "b"] (T "ab") = Some (2, T "c").
Proof. vm_compute. split; reflexivity. Qed.
Example C145_nonvacuous : (0 < 1 / 2 < 1)%R /\ (/ 10000000000 < 1 / 2 * (1 / 4))%R /\ exists s, interpScore (1 / 2) (lgln (1 / 4)) (lgln 0) = Fin s /\ exp s = (1 / 2 * (1 / 4) + (1 - 1 / 2) * 0)%R.
Proof. split; [Lra.lra|]. split; [Lra.lra|]. apply C145_interpolation; Lra.lra. Qed.
Definition perp1 (x : point) : option Q := match x with [a] => Some (1 + (a - (1 # 2)) * (a - (1 # 2)))%Q | _ => None end.
Example C146_nonvacuous : exists x, updateWeights 60 5 (1 # 10) (1 # 4) 0 perp1 [0]%Q = Some (true, x) /\ x <> [0]%Q /\ Forall (fun a => 0 <= a < 1)%Q [0%Q] /\ exists v, perp1 x = Some v /\ (v < 5 # 4)%Q.
Proof.
  eexists. split; [vm_compute; reflexivity|]. split; [discriminate|]. split; [constructor; [lra|constructor]|]. eexists. split; [reflexivity|]. vm_compute. reflexivity.
Qed.
