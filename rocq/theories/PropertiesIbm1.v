(** Properties of the incremental IBM model 1: C66-C69. *)
From Coq Require Import Reals NArith Arith List Bool Lra Lia.
From Verif Require Import AMap MathModel LogNum LogNumProofs RSums Ibm1Spec AligSpec AligModel AligProofs Ibm1Model Ibm1QueryProofs Ibm1EmProofs Ibm1TrainProofs Ibm1Likelihood Ibm1SessionProofs.
Import ListNotations.
Open Scope R_scope.
Definition sent_ok (l : list N) : Prop := (1 <= length l <= 1024)%nat.
Lemma sent_ok_b : forall l, sent_ok l -> sentenceLengthIsOk l = true.
Proof. intros l H. unfold sent_ok in H. unfold sentenceLengthIsOk. destruct l; [cbn in H; lia|]. apply Nat.leb_le. lia. Qed.
(** C66: the log probability of a sentence pair is the log of the length probability times the sum, over ALL alignments, of the joint probability *)
Theorem C66_sentence_probability : forall T slm s t, sent_ok s -> sent_ok t ->
  calcLgProb T slm s t = lgln (exp (slm (length s) (length t)) * total (pts T) (with_null s) t).
Proof. intros. apply calcLgProb_ok; apply sent_ok_b; assumption. Qed.
Print Assumptions C66_sentence_probability.
(** a sentence that is empty or longer than 1024 words has probability zero *)
Theorem C66_length_limits : forall T slm s t, ~ sent_ok s \/ ~ sent_ok t -> calcLgProb T slm s t = LZ /\ obtainBestAlignment T slm s t = Some (LZ, w_init (length s) (length t)).
Proof.
  intros T slm s t H. assert (B : forall l, sentenceLengthIsOk l = true -> sent_ok l).
  { intros l. unfold sentenceLengthIsOk, sent_ok. destruct l; [discriminate|]. rewrite Nat.leb_le. cbn. lia. }
  unfold calcLgProb, obtainBestAlignment. destruct (sentenceLengthIsOk s) eqn:A, (sentenceLengthIsOk t) eqn:C; cbn [andb]; try (split; reflexivity). destruct H as [H|H]; exfalso; apply H, B; assumption.
Qed.
Print Assumptions C66_length_limits.
(** the alignment returned is one of the (l+1)^m alignments, its score is right and no alignment is better *)
Theorem C66_best_alignment : forall T slm s t, sent_ok s -> sent_ok t -> (forall w, In w t -> exists x, In x (with_null s) /\ exp (- FLT_MAX) <= pts T x w) ->
  exists v M a, obtainBestAlignment T slm s t = Some (Fin v, M) /\ In a (alignments (length s) (length t)) /\
    same_dims M (w_init (length s) (length t)) /\ (forall i j, link M i j <-> nth_error a j = Some (S i)) /\
    v = slm (length s) (length t) + ln (joint (pts T) (with_null s) t a) /\ 0 < joint (pts T) (with_null s) t a /\
    (forall a', In a' (alignments (length s) (length t)) -> joint (pts T) (with_null s) t a' <= joint (pts T) (with_null s) t a).
Proof. intros T slm s t Hs Ht H. apply best_ok; [apply sent_ok_b; assumption..|exact H]. Qed.
Print Assumptions C66_best_alignment.
(** feeding the source words in any chunks gives the same probability (without the length model) *)
Theorem C66_stepwise : forall T s t chunks, concat chunks = s ->
  lpFromPpInfo (fold_left (fun pp c => partialProbWithoutLen T (length s) c t pp) chunks (initPpInfo T (length s) t)) = lgln (total (pts T) (with_null s) t).
Proof. intros. apply stepwise. assumption. Qed.
Print Assumptions C66_stepwise.
Definition T1 : lextabR := {| tnum := [((1%N, 1%N), Fin 0)]; tden := [(1%N, Fin 0)] |}.
Lemma pts_T1 : pts T1 1%N 1%N = 1 /\ pts T1 0%N 1%N = 0 /\ (forall x, pts T1 x 2%N = 0).
Proof.
  split; [|split].
  - unfold pts, unsmoothed_logpts, getLexNumer, getLexDenom. cbn. rewrite Rminus_0_r. apply exp_0.
  - reflexivity.
  - intros x. unfold pts, unsmoothed_logpts, getLexNumer. cbn [T1 tnum aget]. destruct (pairdec (x, 2%N) (1%N, 1%N)) as [E|E]; [inversion E|reflexivity].
Qed.
(** finding: scoring a given alignment scores another one, every linked word being moved one source position to the left *)
Theorem C66_alignment_score_refuted :
  (forall T slm s t al, length al = length t -> (forall a, In a al -> a <= length s)%nat ->
    exists M, putAligVec (w_init (length s) (length t)) al = Some M /\ calcLgProbForAlig T slm s t M = lgln (exp (slm (length s) (length t)) * joint (pts T) (with_null s) t (map pred al))) /\
  (exists T s t al M, putAligVec (w_init (length s) (length t)) al = Some M /\ 0 < joint (pts T) (with_null s) t al /\ calcLgProbForAlig T (fun _ _ => 0) s t M = LZ).
Proof.
  split; [intros; apply score_put; assumption|]. destruct (score_put T1 (fun _ _ => 0) [1%N] [1%N] [1%nat]) as (M & E & H); [reflexivity|intros a [<-|[]]; cbn; lia|].
  exists T1, [1%N], [1%N], [1%nat], M. split; [exact E|]. destruct pts_T1 as (P1 & P2 & _). split.
  - unfold joint, lex_prob. cbn [with_null combine prodf fst snd nth length]. rewrite P1. simpl. lra.
  - rewrite H. unfold joint, lex_prob. cbn [map pred with_null combine prodf fst snd nth]. rewrite P2. rewrite Rmult_0_l, !Rmult_0_r. apply lgln_zero.
Qed.
Print Assumptions C66_alignment_score_refuted.
(** finding: a target word that no source word translates inherits the source position of the word before it *)
Theorem C66_unknown_word_refuted : exists T s t M lp, obtainBestAlignment T (fun _ _ => 0) s t = Some (lp, M) /\ link M 0 1 /\ (forall x, pts T x 2%N = 0) /\ t = [1%N; 2%N].
Proof.
  destruct pts_T1 as (P1 & P2 & P3).
  destruct (untranslatable_copies T1 [1%N] 1%N 2%N eq_refl) as (i & m & E & _).
  - intros w [<-|[]]. exists 1%N. split; [right; left; reflexivity|]. rewrite P1. rewrite <- exp_0. apply Rlt_le, exp_increasing. unfold FLT_MAX. assert (0 < / 2 ^ 23 < 1) by (split; [apply Rinv_0_lt_compat, pow_lt; lra|rewrite <- Rinv_1; apply Rinv_lt_contravar; [rewrite Rmult_1_l; apply pow_lt; lra|apply Rlt_pow_R1; [lra|lia]]]). assert (0 < 2 ^ 127) by (apply pow_lt; lra). nra.
  - intros x _. apply P3.
  - assert (Hi : i = 1%nat).
    { assert (E' := E). unfold lexM1LpForBestAlig in E'. cbn [fold_left] in E'. destruct (best_inner T1 (addNullWord [1%N]) 1%N 0%nat) as [l1 b1] eqn:B1. destruct (best_inner T1 (addNullWord [1%N]) 2%N b1) as [l2 b2]. cbn in E'. inversion E'; subst.
      clear E E'. unfold best_inner in B1. cbn [addNullWord length seq fold_left nth fst] in B1. rewrite P1, P2, lgln_zero, (lgln_pos 1) in B1 by lra. rewrite ln_1 in B1. cbn [lgleb fst] in B1.
      destruct (Rle_dec (- FLT_MAX) 0) as [_|Nle]; [inversion B1; reflexivity|]. exfalso. apply Nle. unfold FLT_MAX. assert (0 < / 2 ^ 23 < 1) by (split; [apply Rinv_0_lt_compat, pow_lt; lra|rewrite <- Rinv_1; apply Rinv_lt_contravar; [rewrite Rmult_1_l; apply pow_lt; lra|apply Rlt_pow_R1; [lra|lia]]]). assert (0 < 2 ^ 127) by (apply pow_lt; lra). nra. }
    subst i. destruct (putAligVec_spec (w_init 1 2) [1%nat; 1%nat]) as (M & EM & _ & K); [reflexivity|intros a Ha; cbn in *; intuition lia|].
    eexists T1, [1%N], [1%N; 2%N], M, _. unfold obtainBestAlignment. cbn [sentenceLengthIsOk length Nat.leb andb]. rewrite E. rewrite EM. split; [reflexivity|]. split; [apply K; right; reflexivity|]. split; [exact P3|reflexivity].
Qed.
Print Assumptions C66_unknown_word_refuted.
Example C66_nonvacuous : sent_ok [1%N] /\ sent_ok [1%N; 1%N] /\ (forall w, In w [1%N; 1%N] -> exists x, In x (with_null [1%N]) /\ exp (- FLT_MAX) <= pts T1 x w) /\ total (pts T1) (with_null [1%N]) [1%N; 1%N] = / 4.
Proof.
  destruct pts_T1 as (P1 & P2 & P3). split; [unfold sent_ok; cbn; lia|]. split; [unfold sent_ok; cbn; lia|]. split.
  - intros w Hw. assert (w = 1%N) by (destruct Hw as [<-|[<-|[]]]; reflexivity). subst w. exists 1%N. split; [right; left; reflexivity|]. rewrite P1. rewrite <- exp_0. apply Rlt_le, exp_increasing. unfold FLT_MAX. assert (0 < / 2 ^ 23 < 1) by (split; [apply Rinv_0_lt_compat, pow_lt; lra|rewrite <- Rinv_1; apply Rinv_lt_contravar; [rewrite Rmult_1_l; apply pow_lt; lra|apply Rlt_pow_R1; [lra|lia]]]). assert (0 < 2 ^ 127) by (apply pow_lt; lra). nra.
  - rewrite total_prod by discriminate. cbn [prodf sumf with_null length]. rewrite P1, P2. simpl. lra.
Qed.
(** C67: expectations of one target word add up to one, lie in (0,1] *)
Theorem C67_expectations_sum_to_one : forall T p j, (j < length (trg p))%nat ->
  let row := nth j (anji_aux T (with_null (src p)) (trg p)) [] in
  length row = S (length (src p)) /\ sumf (fun x => x) row = 1 /\ (forall x, In x row -> 0 < x <= 1).
Proof.
  intros T p j Hj row. unfold row, anji_aux. rewrite (nth_indep _ [] (anji_row T (with_null (src p)) 0%N)) by (now rewrite map_length). rewrite (map_nth (anji_row T _)).
  destruct (anji_row_sum T (with_null (src p)) (nth j (trg p) 0%N) ltac:(discriminate)) as (A & B & C). split; [exact C|]. split; [exact A|exact B].
Qed.
Print Assumptions C67_expectations_sum_to_one.
(** they are the posterior probabilities of the alignment links when no threshold is active *)
Theorem C67_expectations_are_posteriors : forall D E p j i, reached D E -> thresholds_inactive (pts (tab E)) [p] -> (j < length (trg p))%nat -> (i <= length (src p))%nat ->
  nth i (nth j (anji_aux (tab E) (with_null (src p)) (trg p)) []) 0 = posterior (pts (tab E)) (with_null (src p)) (trg p) j i.
Proof.
  intros D E p j i R Un Hj Hi. apply estep_post; [|intros w Hw|exact Hj|exact Hi].
  - intros x Hx. destruct (Un p x (nth j (trg p) 0%N) (or_introl eq_refl) Hx (nth_In _ _ Hj)) as [A _]. split; [|exact A]. intros G. unfold pts, unsmoothed_logpts in A. rewrite G in A. cbn in A. lra.
  - apply (sumf_pos _ _ 0%N); [intros; apply pts_nonneg|left; reflexivity|]. destruct (Un p 0%N w (or_introl eq_refl) (or_introl eq_refl) Hw) as [A _]. lra.
Qed.
Print Assumptions C67_expectations_are_posteriors.
(** the expectations used in training are those of the specification *)
Theorem C67_expectation_step : forall D E p, reached D E -> anji_aux (tab E) (with_null (src p)) (trg p) = estep (pts (tab E)) p.
Proof. intros D E p R. apply (estep_ok (tab E) p), (reached_ok D E R). Qed.
Print Assumptions C67_expectation_step.
(** C68: after any session of additions and incremental training the translation probabilities are those of incremental EM *)
Theorem C68_incremental_em : forall ops s t, legal 0 ops ->
  pts (tab (snd (fold_left em_step ops ([], em_new)))) s t = iem_prob (fold_left iem_op ops iem_new) s t.
Proof. intros ops s t L. apply agree_prob, session, L. Qed.
Print Assumptions C68_incremental_em.
(** and the probabilities of the translations of a source word that has any add up to one *)
Theorem C68_normalised : forall ops s t, legal 0 ops -> let x := fold_left em_step ops ([], em_new) in
  0 < pts (tab (snd x)) s t -> sumf (pts (tab (snd x)) s) (vocab (fst x)) = 1.
Proof. intros ops s t L x P. eapply trained_sum1; [apply (session ops L)|exact P]. Qed.
Print Assumptions C68_normalised.
(** batch training: relative frequencies of the expected counts under the old probabilities *)
Theorem C68_batch_training : forall D E b e s t, reached D E -> (e < length D)%nat ->
  pts (tab (efficientBatchTrainingForRange D (range_of b e) E)) s t =
  rel_freq D (fun s t => sumf (fun n => pair_count (nth n D no_pair) (estep (pts (tab E)) (nth n D no_pair)) s t) (training_set D (range_of b e))) s t.
Proof.
  intros D E b e s t R H. destruct (reached_ok D E R) as [I W].
  apply (batch_formula D (range_of b e) E s t); [intros; auto|apply seq_NoDup|intros n Hn; eapply range_lt; eauto|exact I].
Qed.
Print Assumptions C68_batch_training.
Definition p11 : pair := {| weight := 1; src := [1%N]; trg := [1%N] |}.
Definition p12 : pair := {| weight := 1; src := [1%N]; trg := [2%N] |}.
Definition ops2 : list em_op := [AddPair p11; AddPair p12].
Definition D2 : list pair := [p11; p12].
Definition E2 : em := efficientBatchTrainingForRange D2 (range_of 0 1) em_new.
Lemma reached2 : reached D2 em_new.
Proof. apply (r_session ops2). cbn. repeat split; lra. Qed.
Lemma estep2 : forall p, p = p11 \/ p = p12 -> estep (pts (tab em_new)) p = [[/ 2; / 2]].
Proof.
  intros p H. assert (Z : forall s t, raw_share (pts (tab em_new)) s t = 1 / 10).
  { intros s t. unfold raw_share. change (pts (tab em_new) s t) with 0. destruct (Rlt_dec 0 0); [lra|]. apply Rmax_left. lra. }
  destruct H as [->| ->]; unfold estep; cbn [p11 p12 trg src with_null map sumf]; rewrite !Z; repeat f_equal; lra.
Qed.
Lemma pts2 : forall s t, (s = 0%N \/ s = 1%N) -> (t = 1%N \/ t = 2%N) -> pts (tab E2) s t = / 2.
Proof.
  intros s t Hs Ht. unfold E2. rewrite (C68_batch_training D2 em_new 0 1 s t reached2) by (cbn; lia).
  set (c := fun s t => sumf _ _). assert (C : forall s t, (s = 0%N \/ s = 1%N) -> (t = 1%N \/ t = 2%N) -> c s t = / 2).
  { intros s' t' Hs' Ht'. unfold c. change (training_set D2 (range_of 0 1)) with [0%nat; 1%nat]. cbn [sumf nth D2]. rewrite !estep2 by auto. unfold pair_count, at_least_1e6.
    destruct Hs' as [->| ->], Ht' as [->| ->]; cbn; rewrite ?Rmax_left by lra; lra. }
  unfold rel_freq. change (vocab D2) with [1%N; 2%N]. cbn [sumf]. rewrite !C by auto. lra.
Qed.
Lemma inactive2 : thresholds_inactive (pts (tab E2)) D2.
Proof.
  intros q x w Hq Hx Hw. destruct Hq as [<-|[<-|[]]]; cbn [p11 p12 src trg with_null In weight sumf] in *.
  - destruct Hw as [<-|[]]. destruct Hx as [<-|[<-|[]]]; rewrite !pts2 by auto; lra.
  - destruct Hw as [<-|[]]. destruct Hx as [<-|[<-|[]]]; rewrite !pts2 by auto; lra.
Qed.
Example C67_nonvacuous : reached D2 E2 /\ thresholds_inactive (pts (tab E2)) [p11] /\ posterior (pts (tab E2)) (with_null (src p11)) (trg p11) 0 1 = / 2.
Proof.
  split; [apply r_batch; [apply reached2|cbn; lia]|]. split; [intros q x w [<-|[]]; apply (inactive2 p11); left; reflexivity|].
  rewrite posterior_share; [cbn; rewrite !pts2 by auto; lra|discriminate|intros w [<-|[]]; cbn; rewrite !pts2 by auto; lra|cbn; lia|cbn; lia].
Qed.
Example C68_nonvacuous : legal 0 (ops2 ++ [Train 0 1; Train 1 1]) /\ pts (tab E2) 1%N 2%N = / 2.
Proof. split; [cbn; repeat split; lra || lia|apply pts2; auto]. Qed.
(** C69: a round of batch training never decreases the log likelihood the program reports *)
Theorem C69_likelihood_never_decreases : forall D E b e slm, reached D E -> (e < length D)%nat -> (forall p, In p D -> weight p = 1) ->
  thresholds_inactive (pts (tab E)) (map (fun n => nth n D no_pair) (training_set D (range_of b e))) ->
  exists x y, loglikelihood (tab E) slm (map (fun n => nth n D no_pair) (range_of b e)) = Fin x /\
    loglikelihood (tab (efficientBatchTrainingForRange D (range_of b e) E)) slm (map (fun n => nth n D no_pair) (range_of b e)) = Fin y /\ x <= y.
Proof.
  intros D E b e slm R H W Un. destruct (reached_ok D E R) as [I _]. apply loglik_monotone; [exact W|apply seq_NoDup|intros n Hn; eapply range_lt; eauto|exact I|exact Un].
Qed.
Print Assumptions C69_likelihood_never_decreases.
(** for weighted sentence pairs it is the weighted log likelihood that never decreases *)
Theorem C69_weighted : forall D E b e, reached D E -> (e < length D)%nat -> let ps := map (fun n => nth n D no_pair) (training_set D (range_of b e)) in
  thresholds_inactive (pts (tab E)) ps ->
  sumf (fun p => weight p * ln (total (pts (tab E)) (with_null (src p)) (trg p))) ps <=
  sumf (fun p => weight p * ln (total (pts (tab (efficientBatchTrainingForRange D (range_of b e) E))) (with_null (src p)) (trg p))) ps.
Proof.
  intros D E b e R H ps Un. destruct (reached_ok D E R) as [I W]. unfold ps. rewrite !sumf_map.
  apply (weighted_monotone D (range_of b e) E); [intros; auto|apply seq_NoDup|intros n Hn; eapply range_lt; eauto|exact I|exact Un].
Qed.
Print Assumptions C69_weighted.
Example C69_nonvacuous : reached D2 E2 /\ (forall p, In p D2 -> weight p = 1) /\ thresholds_inactive (pts (tab E2)) (map (fun n => nth n D2 no_pair) (training_set D2 (range_of 0 1))).
Proof.
  split; [apply r_batch; [apply reached2|cbn; lia]|]. split; [intros p [<-|[<-|[]]]; reflexivity|exact inactive2].
Qed.
