(** Properties of the incremental IBM model 2: C97-C100.  In the statements, palig A (j,l,m) i is aProb A j l m i. *)
From Coq Require Import Reals NArith Arith List Bool Lra Lia.
From Verif Require Import AMap MathModel LogNum LogNumProofs RSums Ibm1Spec AligSpec AligModel AligProofs Ibm1Model Ibm1QueryProofs Ibm1EmProofs Ibm1TrainProofs Ibm1SessionProofs Ibm2Spec Ibm2Model NdProofs NdTrain Ibm2QueryProofs Ibm2TrainProofs Ibm2Likelihood.
Import ListNotations.
Open Scope R_scope.
(** C97: the log probability of a sentence pair is the log of the length probability times the sum, over ALL alignments, of the joint probability *)
Theorem C97_sentence_probability : forall L A slm s t, calcLgProb2 L A slm s t = lgln (exp (slm (length s) (length t)) * total2 (pts2 L) (palig A) (with_null s) t).
Proof. intros. apply calcLgProb2_ok. Qed.
Print Assumptions C97_sentence_probability.
(** the alignment returned is one of the (l+1)^m alignments, its score is right and no alignment is better *)
Theorem C97_best_alignment : forall L A slm s t,
  (forall k, (k < length t)%nat -> exists i, (i <= length s)%nat /\ exp (- FLT_MAX) <= gen2 (pts2 L) (palig A) (with_null s) t k i) ->
  exists v M a, obtainBestAlignment2 L A slm s t = Some (Fin v, M) /\ In a (alignments (length s) (length t)) /\
    same_dims M (w_init (length s) (length t)) /\ (forall i j, link M i j <-> nth_error a j = Some (S i)) /\
    v = slm (length s) (length t) + ln (joint2 (pts2 L) (palig A) (with_null s) t a) /\ 0 < joint2 (pts2 L) (palig A) (with_null s) t a /\
    (forall a', In a' (alignments (length s) (length t)) -> joint2 (pts2 L) (palig A) (with_null s) t a' <= joint2 (pts2 L) (palig A) (with_null s) t a).
Proof.
  intros L A slm s t H. apply best2_ok. intros k Hk. destruct (H k Hk) as (i & Hi & X). exists i. split; [cbn; lia|exact X].
Qed.
Print Assumptions C97_best_alignment.
(** unlike model 1 (C66_unknown_word_refuted), a target word that nothing generates stays unaligned *)
Lemma words_al : forall L A ns t l lp al, snd (fold_left (word_step L A ns t) l (lp, al)) = al ++ map (fun j => snd (best_inner2 L A ns (length t) j (nth j t 0%N))) l.
Proof.
  intros L A ns t. induction l as [|j l IH]; intros lp al; cbn [fold_left map]; [now rewrite app_nil_r|]. unfold word_step at 2. destruct (best_inner2 L A ns (length t) j (nth j t 0%N)) as [m bi]. rewrite IH, <- app_assoc. reflexivity.
Qed.
Theorem C97_unknown_word : forall L A slm s t, exists v M, obtainBestAlignment2 L A slm s t = Some (v, M) /\
  forall k, (k < length t)%nat -> (forall i, (i <= length s)%nat -> gen2 (pts2 L) (palig A) (with_null s) t k i = 0) -> forall i, ~ link M i k.
Proof.
  intros L A slm s t. unfold obtainBestAlignment2. change (addNullWord s) with (with_null s). destruct (lexAligM2LpForBestAlig L A (with_null s) t) as [lp al] eqn:E.
  pose proof (words_al L A (with_null s) t (seq 0 (length t)) (Fin 0) []) as W. unfold lexAligM2LpForBestAlig in E. fold (word_step L A (with_null s) t) in E. rewrite E in W. cbn [snd app] in W.
  assert (B : forall j, (snd (best_inner2 L A (with_null s) (length t) j (nth j t 0%N)) <= length s)%nat).
  { intros j. destruct (best_inner2_ok L A slm (with_null s) t j) as (m & b & -> & [(_ & -> & _)|(_ & Y & _)]); cbn in *; lia. }
  destruct (putAligVec_spec (w_init (length s) (length t)) al) as (M & EM & _ & K).
  - rewrite W, map_length, seq_length. reflexivity.
  - intros a Ha. rewrite W in Ha. apply in_map_iff in Ha as (j & <- & _). apply B.
  - rewrite EM. do 2 eexists. split; [reflexivity|]. intros k Hk Hz i Hl. apply K in Hl as [Hl|Hl]; [destruct Hl as [_ X]; cbn in X; now apply X|].
    rewrite W in Hl. rewrite nth_error_map in Hl. rewrite (nth_error_nth' _ 0%nat) in Hl by (now rewrite seq_length). rewrite seq_nth in Hl by exact Hk. cbn [option_map plus] in Hl.
    rewrite (ungenerable L A slm (with_null s) t k Hk) in Hl; [discriminate|]. intros i' Hi'. apply Hz. cbn in Hi'. lia.
Qed.
Print Assumptions C97_unknown_word.
(** feeding the source words in any chunks gives the same probability (without the length model) *)
Theorem C97_stepwise : forall L A s t chunks, concat chunks = s ->
  lpFromPpInfo (snd (fold_left (fun st c => ((fst st + length c)%nat, partialProbWithoutLen2 L A (fst st) (length s) c t (snd st))) chunks (0%nat, initPpInfo2 L A (length s) t)))
  = lgln (total2 (pts2 L) (palig A) (with_null s) t).
Proof. intros. apply stepwise2. assumption. Qed.
Print Assumptions C97_stepwise.
Definition L1 : ltab := {| ndn := [((1%N, 1%N), Fin 0)]; ndd := [(1%N, Fin 0)] |}.
Definition A1 : atab := {| ndn := [(((1, 1, 1), 1)%nat, Fin 0)]; ndd := [((1, 1, 1)%nat, Fin 0)] |}.
Lemma vals1 : pts2 L1 1%N 1%N = 1 /\ pts2 L1 0%N 1%N = 0 /\ palig A1 (1, 1, 1)%nat 1%nat = 1.
Proof.
  split; [|split].
  - unfold pts2, prob, logprob, getNumer, getDenom. cbn. rewrite Rminus_0_r. apply exp_0.
  - reflexivity.
  - unfold palig, prob, logprob, getNumer, getDenom. cbn. rewrite Rminus_0_r. apply exp_0.
Qed.
(** finding: scoring a given alignment scores another one, every linked word being moved one source position to the left, and leaves out the length probability *)
Theorem C97_alignment_score_refuted :
  (forall L A s t al, length al = length t -> (forall a, In a al -> a <= length s)%nat ->
    exists M, putAligVec (w_init (length s) (length t)) al = Some M /\ calcLgProbForAlig2 L A s t M = lgln (joint2 (pts2 L) (palig A) (with_null s) t (map pred al))) /\
  (exists L A s t al M, putAligVec (w_init (length s) (length t)) al = Some M /\ 0 < joint2 (pts2 L) (palig A) (with_null s) t al /\ calcLgProbForAlig2 L A s t M = LZ).
Proof.
  split; [intros; apply score2_put; assumption|]. destruct (score2_put L1 A1 [1%N] [1%N] [1%nat]) as (M & E & H); [reflexivity|intros a [<-|[]]; cbn; lia|].
  exists L1, A1, [1%N], [1%N], [1%nat], M. split; [exact E|]. destruct vals1 as (P1 & P2 & P3). split.
  - unfold joint2, gen2. cbn [with_null length seq prodf nth pred]. rewrite P1, P3. lra.
  - rewrite H. unfold joint2, gen2. cbn [map with_null length seq prodf nth pred]. rewrite P2. rewrite !Rmult_0_l. apply lgln_zero.
Qed.
Print Assumptions C97_alignment_score_refuted.
Lemma big : exp (- FLT_MAX) <= 1.
Proof.
  rewrite <- exp_0. apply Rlt_le, exp_increasing. unfold FLT_MAX. assert (0 < / 2 ^ 23 < 1) by (split; [apply Rinv_0_lt_compat, pow_lt; lra|rewrite <- Rinv_1; apply Rinv_lt_contravar; [rewrite Rmult_1_l; apply pow_lt; lra|apply Rlt_pow_R1; [lra|lia]]]). assert (0 < 2 ^ 127) by (apply pow_lt; lra). nra.
Qed.
Example C97_nonvacuous : (forall k, (k < length [1%N])%nat -> exists i, (i <= length [1%N])%nat /\ exp (- FLT_MAX) <= gen2 (pts2 L1) (palig A1) (with_null [1%N]) [1%N] k i) /\
  total2 (pts2 L1) (palig A1) (with_null [1%N]) [1%N] = 1 /\ gen2 (pts2 L1) (palig A1) (with_null [1%N]) [1%N] 0 0 = 0.
Proof.
  destruct vals1 as (P1 & P2 & P3). split; [|split].
  - intros k Hk. assert (k = 0%nat) by (cbn in Hk; lia). subst k. exists 1%nat. split; [cbn; lia|]. unfold gen2. cbn [with_null length nth pred]. rewrite P1, P3. pose proof big. lra.
  - rewrite total2_prod by discriminate. unfold gen2. cbn [with_null length seq prodf sumf nth pred]. rewrite P1, P2, P3. lra.
  - unfold gen2. cbn [with_null length nth pred]. rewrite P2. lra.
Qed.
(** C98: expectations of one target position add up to one, lie in (0,1] *)
Theorem C98_expectations_sum_to_one : forall L A p j, (j < length (trg p))%nat ->
  let row := nth j (anji_aux2 L A (with_null (src p)) (trg p)) [] in
  length row = S (length (src p)) /\ sumf (fun x => x) row = 1 /\ (forall x, In x row -> 0 < x <= 1).
Proof.
  intros L A p j Hj row. unfold row, anji_aux2. rewrite nth_map_seq_l by exact Hj. destruct (row2_sum L A (with_null (src p)) (trg p) j ltac:(discriminate)) as (X & Y & Z). split; [exact Z|]. split; [exact X|exact Y].
Qed.
Print Assumptions C98_expectations_sum_to_one.
(** the expectations used in training are those of the specification *)
Theorem C98_expectation_step : forall D E p, reached2 D E -> anji_aux2 (ltb E) (atb E) (with_null (src p)) (trg p) = estep2 (pts2 (ltb E)) (palig (atb E)) p.
Proof. intros D E p R. destruct (reached2_ok D E R) as (I & J & _). apply (estep2_ok (ltb E) (atb E) p I J). Qed.
Print Assumptions C98_expectation_step.
(** they are the posterior probabilities of the alignment links when no threshold is active *)
Theorem C98_expectations_are_posteriors : forall D E p j i, reached2 D E -> thresholds_inactive2 (pts2 (ltb E)) (palig (atb E)) [p] -> (j < length (trg p))%nat -> (i <= length (src p))%nat ->
  nth i (nth j (anji_aux2 (ltb E) (atb E) (with_null (src p)) (trg p)) []) 0 = posterior2 (pts2 (ltb E)) (palig (atb E)) (with_null (src p)) (trg p) j i.
Proof.
  intros D E p j i R Un Hj Hi. destruct (reached2_ok D E R) as (I & J & _).
  assert (U : forall k i, (k < length (trg p))%nat -> (i <= length (src p))%nat -> / 1000000 <= gen2 (pts2 (ltb E)) (palig (atb E)) (with_null (src p)) (trg p) k i) by (intros k i' Hk Hi'; apply (Un p k i' (or_introl eq_refl) Hk Hi')).
  rewrite posterior2_share; [|discriminate| |exact Hj|cbn; lia].
  - apply (share2 (ltb E) (atb E) p j i I J); [intros; apply U; assumption|exact Hj|exact Hi].
  - intros k Hk. apply (sumf_pos _ _ 0%nat); [intros; apply gen2_pos|apply in_seq; cbn; lia|]. pose proof (U k 0%nat Hk ltac:(lia)). lra.
Qed.
Print Assumptions C98_expectations_are_posteriors.
(** C99: after any session of additions and incremental training both parameter sets are those of incremental EM *)
Theorem C99_incremental_em : forall ops, legal 0 ops -> let E := snd (fold_left em2_step ops ([], em2_new)) in let x := fold_left iem2_op ops iem_new in
  (forall s t, pts2 (ltb E) s t = iem_prob x s t) /\ (forall j l m i, aProb (atb E) j l m i = iem2_alig x (j, l, m) i).
Proof. intros ops L E x. pose proof (session2 ops L) as A. split; [intros; apply (agree2_prob _ _ s t A)|intros; apply (agree2_alig _ _ (j, l, m) i A)]. Qed.
Print Assumptions C99_incremental_em.
(** and both are distributions *)
Theorem C99_normalised : forall ops, legal 0 ops -> let x := fold_left em2_step ops ([], em2_new) in
  (forall s t, 0 < pts2 (ltb (snd x)) s t -> sumf (pts2 (ltb (snd x)) s) (vocab (fst x)) = 1) /\
  (forall j l m i, 0 < aProb (atb (snd x)) j l m i -> sumf (aProb (atb (snd x)) j l m) (seq 0 (S l)) = 1).
Proof.
  intros ops L x. destruct (session2 ops L) as (Tr & _). fold x in Tr. split.
  - intros s t P. apply (holds_sum1 N.eq_dec N.eq_dec kfl (fst x) (ltb (snd x)) (old2 (snd x)) s t (vocab (fst x)) (t2_lex _ _ Tr) (NoDup_nodup _ _)); [|exact P].
    intros n t' X Y. eapply in_target; [intros; apply (t2_store _ _ Tr); eassumption|exact X|exact Y].
  - intros j l m i P. apply (holds_sum1 aposdec Nat.eq_dec kfa (fst x) (atb (snd x)) (old2 (snd x)) (j, l, m) i (seq 0 (S l)) (t2_alig _ _ Tr) (seq_NoDup _ _)); [|exact P].
    intros n i' X Y. apply gocc_alig in Y as [Y1 Y2]. cbn [fst snd] in Y1. apply in_seq. lia.
Qed.
Print Assumptions C99_normalised.
(** batch training: relative frequencies of the expected counts under the old probabilities *)
Theorem C99_batch_training : forall D E b e, reached2 D E -> (e < length D)%nat ->
  let E' := efficientBatchTrainingForRange2 D (range_of b e) E in let ex n := estep2 (pts2 (ltb E)) (palig (atb E)) (nth n D no_pair) in
  (forall s t, pts2 (ltb E') s t = rel_freq D (fun s t => sumf (fun n => pair_count (nth n D no_pair) (ex n) s t) (training_set D (range_of b e))) s t) /\
  (forall j l m i, aProb (atb E') j l m i = alig_freq (fun k i => sumf (fun n => alig_count (nth n D no_pair) (ex n) k i) (training_set D (range_of b e))) (j, l, m) i).
Proof.
  intros D E b e R H E' ex. destruct (reached2_ok D E R) as (I & J & W). assert (Hr : forall n, In n (range_of b e) -> (n < length D)%nat) by (intros n Hn; eapply range_lt; eauto).
  destruct (batch2 D (range_of b e) E (fun p Hp _ => W p Hp) (seq_NoDup _ _) Hr) as [HL HA]. fold E' in HL, HA.
  assert (Ex : forall n, new2 (ltb E) (atb E) (nth n D no_pair) = ex n) by (intros n; apply estep2_ok; assumption). split.
  - intros s t. rewrite (lex_prob D (batch_ex D (range_of b e) E) _ s t); [|intros n X; unfold batch_ex in X; destruct (in_dec _ _ _) as [Q|]; [apply training_set_in in Q as [Q _]; apply Hr, Q|congruence]|exact HL].
    unfold iem_prob, rel_freq. cbn [fst snd]. f_equal; [|apply sumf_ext; intros w _]; unfold counts; rewrite (ex_sum D (range_of b e) E (fun n m => pair_count (nth n D no_pair) m _ _) (seq_NoDup _ _) Hr); apply sumf_ext; intros n _; now rewrite Ex.
  - intros j l m i. change (aProb (atb E') j l m i) with (palig (atb E') (j, l, m) i). rewrite (alig_prob D (batch_ex D (range_of b e) E) _ (j, l, m) i HA).
    unfold iem2_alig, alig_freq. cbn [fst snd]. f_equal; [|apply sumf_ext; intros w _]; unfold alig_counts; rewrite (ex_sum D (range_of b e) E (fun n m' => alig_count (nth n D no_pair) m' _ _) (seq_NoDup _ _) Hr); apply sumf_ext; intros n _; now rewrite Ex.
Qed.
Print Assumptions C99_batch_training.
Definition p11 : pair := {| weight := 1; src := [1%N]; trg := [1%N] |}.
Definition p12 : pair := {| weight := 1; src := [1%N]; trg := [2%N] |}.
Definition ops2 : list em_op := [AddPair p11; AddPair p12].
Definition D2 : list pair := [p11; p12].
Definition E2 : em2 := efficientBatchTrainingForRange2 D2 (range_of 0 1) em2_new.
Lemma reach2 : reached2 D2 em2_new.
Proof. apply (r2_session ops2). cbn. repeat split; lra. Qed.
Lemma es2 : forall p, p = p11 \/ p = p12 -> estep2 (pts2 (ltb em2_new)) (palig (atb em2_new)) p = [[/ 2; / 2]].
Proof.
  intros p H. assert (Z : forall k i, raw2 (pts2 (ltb em2_new)) (palig (atb em2_new)) p k i = 1 / 100).
  { intros k i. unfold raw2. change (pts2 (ltb em2_new) _ _) with 0. change (palig (atb em2_new) _ _) with 0. unfold seen_or. destruct (Rlt_dec 0 0); [lra|]. rewrite Rmax_left; lra. }
  destruct H as [->| ->]; unfold estep2; cbn [p11 p12 trg src length seq map sumf]; rewrite !Z; repeat f_equal; lra.
Qed.
Lemma vals2 : (forall s t, (s = 0%N \/ s = 1%N) -> (t = 1%N \/ t = 2%N) -> pts2 (ltb E2) s t = / 2) /\ (forall i, (i <= 1)%nat -> palig (atb E2) (1, 1, 1)%nat i = / 2).
Proof.
  destruct (C99_batch_training D2 em2_new 0 1 reach2 ltac:(cbn; lia)) as [PL PA]. fold E2 in PL, PA. split.
  - intros s t Hs Ht. rewrite PL. set (c := fun s t => sumf _ _). assert (C : forall s t, (s = 0%N \/ s = 1%N) -> (t = 1%N \/ t = 2%N) -> c s t = / 2).
    { intros s' t' Hs' Ht'. unfold c. change (training_set D2 (range_of 0 1)) with [0%nat; 1%nat]. cbn [sumf nth D2]. rewrite !es2 by auto. unfold pair_count, at_least_1e6.
      destruct Hs' as [->| ->], Ht' as [->| ->]; cbn; rewrite ?Rmax_left by lra; lra. }
    unfold rel_freq. change (vocab D2) with [1%N; 2%N]. cbn [sumf]. rewrite !C by auto. lra.
  - intros i Hi. change (palig (atb E2) (1, 1, 1)%nat i) with (aProb (atb E2) 1 1 1 i). rewrite PA. set (c := fun k i => sumf _ _). assert (C : forall i, (i <= 1)%nat -> c (1, 1, 1)%nat i = 1).
    { intros i' Hi'. unfold c. change (training_set D2 (range_of 0 1)) with [0%nat; 1%nat]. cbn [sumf nth D2]. rewrite !es2 by auto. unfold alig_count, at_least_1e6.
      destruct i' as [|[|i']]; [| |lia]; cbn; rewrite ?Rmax_left by lra; lra. }
    unfold alig_freq. cbn [fst snd seq sumf]. rewrite !C by lia. lra.
Qed.
Lemma inact2 : thresholds_inactive2 (pts2 (ltb E2)) (palig (atb E2)) D2.
Proof.
  destruct vals2 as [VL VA].
  assert (X : forall w i, (w = 1%N \/ w = 2%N) -> (i <= 1)%nat -> gen2 (pts2 (ltb E2)) (palig (atb E2)) (with_null [1%N]) [w] 0 i = / 4).
  { intros w i' Hw Hi'. unfold gen2. cbn [with_null nth length pred]. rewrite VA by exact Hi'. rewrite VL; [lra|destruct i' as [|[|i']]; [left|right|lia]; reflexivity|exact Hw]. }
  intros q k i Hq Hk Hi. destruct Hq as [<-|[<-|[]]]; cbn [p11 p12 src trg length weight] in *; (assert (k = 0%nat) by lia; subst k); cbn [seq sumf]; rewrite !X by (first [lia|auto]); lra.
Qed.
Example C98_nonvacuous : reached2 D2 E2 /\ thresholds_inactive2 (pts2 (ltb E2)) (palig (atb E2)) [p11].
Proof. split; [apply r2_batch; [apply reach2|cbn; lia]|]. intros q k i [<-|[]]. apply inact2. left. reflexivity. Qed.
Example C99_nonvacuous : legal 0 (ops2 ++ [Train 0 1; Train 1 1]) /\ pts2 (ltb E2) 1%N 2%N = / 2 /\ aProb (atb E2) 1 1 1 0 = / 2.
Proof. split; [cbn; repeat split; lra || lia|]. destruct vals2 as [VL VA]. split; [apply VL; auto|apply (VA 0%nat); lia]. Qed.
(** C100: a round of batch training never decreases the log likelihood the program reports *)
Theorem C100_likelihood_never_decreases : forall D E b e slm, reached2 D E -> (e < length D)%nat -> (forall p, In p D -> weight p = 1) ->
  thresholds_inactive2 (pts2 (ltb E)) (palig (atb E)) (map (fun n => nth n D no_pair) (training_set D (range_of b e))) ->
  let E' := efficientBatchTrainingForRange2 D (range_of b e) E in
  exists x y, loglikelihood2 (ltb E) (atb E) slm (map (fun n => nth n D no_pair) (range_of b e)) = Fin x /\
    loglikelihood2 (ltb E') (atb E') slm (map (fun n => nth n D no_pair) (range_of b e)) = Fin y /\ x <= y.
Proof.
  intros D E b e slm R H W Un E'. destruct (reached2_ok D E R) as (I & J & _). apply loglik2_monotone; [exact W|apply seq_NoDup|intros n Hn; eapply range_lt; eauto|exact I|exact J|exact Un].
Qed.
Print Assumptions C100_likelihood_never_decreases.
(** for weighted sentence pairs it is the weighted log likelihood that never decreases *)
Theorem C100_weighted : forall D E b e, reached2 D E -> (e < length D)%nat -> let ps := map (fun n => nth n D no_pair) (training_set D (range_of b e)) in
  thresholds_inactive2 (pts2 (ltb E)) (palig (atb E)) ps ->
  let E' := efficientBatchTrainingForRange2 D (range_of b e) E in
  sumf (fun p => weight p * ln (total2 (pts2 (ltb E)) (palig (atb E)) (with_null (src p)) (trg p))) ps <=
  sumf (fun p => weight p * ln (total2 (pts2 (ltb E')) (palig (atb E')) (with_null (src p)) (trg p))) ps.
Proof.
  intros D E b e R H ps Un E'. destruct (reached2_ok D E R) as (I & J & W). unfold ps. rewrite !sumf_map.
  apply (weighted_monotone2 D (range_of b e) E); [intros; auto|apply seq_NoDup|intros n Hn; eapply range_lt; eauto|exact I|exact J|exact Un].
Qed.
Print Assumptions C100_weighted.
Example C100_nonvacuous : reached2 D2 E2 /\ (forall p, In p D2 -> weight p = 1) /\ thresholds_inactive2 (pts2 (ltb E2)) (palig (atb E2)) (map (fun n => nth n D2 no_pair) (training_set D2 (range_of 0 1))).
Proof.
  split; [apply r2_batch; [apply reach2|cbn; lia]|]. split; [intros p [<-|[<-|[]]]; reflexivity|exact inact2].
Qed.
