From Coq Require Import Reals NArith Arith List Bool Lra Lia Permutation.
From Verif Require Import AMap MathModel LogNum LogNumProofs RSums EmMath Ibm1Spec Ibm1Model Ibm1QueryProofs Ibm1EmProofs Ibm1TrainProofs Ibm1Likelihood.
Import ListNotations.
Open Scope R_scope.
Lemma pts_pos_iff : forall T s t, tab_inv T -> (0 < pts T s t <-> getLexNumer T s t <> None).
Proof.
  intros T s t I. destruct (pts_val T s t I) as [_ B]. split; [|exact B]. intros H G. unfold pts, unsmoothed_logpts in H. rewrite G in H. cbn in H. lra.
Qed.
Lemma estep_ok : forall T p, tab_inv T -> new_of T p = estep (pts T) p.
Proof.
  intros T p I. unfold new_of, anji_aux, estep. apply map_ext. intros t. unfold anji_row.
  assert (E : forall s, smooth_num (calc_anji_num T s t) = raw_share (pts T) s t).
  { intros s. unfold smooth_num, calc_anji_num, raw_share, SMOOTHING_ANJI_NUM, ARBITRARY_PTS. destruct (getLexNumer T s t) eqn:G.
    - destruct (Rlt_dec 0 (pts T s t)) as [_|X]; [|exfalso; apply X, pts_pos_iff; [exact I|congruence]]. destruct (Rlt_dec _ _); [rewrite Rmax_right; lra|rewrite Rmax_left; lra].
    - destruct (Rlt_dec 0 (pts T s t)) as [X|_]; [exfalso; apply (pts_pos_iff T s t I) in X; congruence|]. destruct (Rlt_dec _ _); [rewrite Rmax_right; lra|rewrite Rmax_left; lra]. }
  rewrite (map_ext _ _ E). rewrite map_map. apply map_ext. intros s. f_equal. rewrite fold_plus, sumf_map. lra.
Qed.
Lemma estep_ext : forall q q' p, (forall s t, q s t = q' s t) -> estep q p = estep q' p.
Proof.
  intros q q' p H. unfold estep. apply map_ext. intros t. apply map_ext. intros s. unfold raw_share. rewrite H. f_equal. apply sumf_ext. intros s' _. now rewrite H.
Qed.
Lemma trained_prob : forall D E s t, trained D E -> pts (tab E) s t = iem_prob (D, oldof E) s t.
Proof.
  intros D E s t Tr. unfold iem_prob, rel_freq. cbn [fst snd]. rewrite (pts_rel (tab E) s t (vocab D) (tr_inv _ _ Tr) (NoDup_nodup _ _)).
  - rewrite (tr_num _ _ Tr). f_equal. apply sumf_ext. intros w _. apply (tr_num _ _ Tr).
  - intros w Hw. apply (tr_has _ _ Tr) in Hw as (n & A & B). apply nodup_In, in_flat_map. destruct (tr_store _ _ Tr n A) as [L _]. exists (nth n D no_pair). split; [apply nth_In; exact L|].
    unfold cooc, occ in B. destruct (filter _ _) as [|q l] eqn:Q; [congruence|]. assert (X : In q (q :: l)) by (left; reflexivity). rewrite <- Q in X. apply filter_In in X as [X1 X2].
    apply andb_true_iff in X2 as [_ X2]. apply N.eqb_eq in X2. destruct q as [j i]. apply positions_in in X1 as [Hj _]. cbn [fst] in X2. rewrite <- X2. apply nth_In, Hj.
Qed.
Lemma counts_app : forall D p ex s t, ex (length D) = None -> counts (D ++ [p]) ex s t = counts D ex s t.
Proof.
  intros D p ex s t H. unfold counts. rewrite app_length. cbn [length]. rewrite Nat.add_1_r, seq_S, sumf_app. cbn [sumf]. rewrite Nat.add_0_l, H, Rplus_0_r, Rplus_0_r.
  apply sumf_ext. intros n Hn. apply in_seq in Hn. rewrite app_nth1 by lia. reflexivity.
Qed.
Lemma trained_add : forall D E p, trained D E -> trained (D ++ [p]) E.
Proof.
  intros D E p Tr. assert (Ln : forall n, oldof E n <> None -> (n < length D)%nat) by (intros n H; apply (tr_store _ _ Tr n H)).
  constructor; [apply Tr|apply Tr| | |].
  - intros n H. destruct (tr_store _ _ Tr n H) as [A B]. rewrite app_length, app_nth1 by exact A. split; [cbn; lia|exact B].
  - intros s t. rewrite counts_app; [apply Tr|]. destruct (oldof E (length D)) eqn:Q; [|reflexivity]. exfalso. specialize (Ln (length D)). rewrite Q in Ln. assert (Z : (length D < length D)%nat) by (apply Ln; discriminate). lia.
  - intros s t. rewrite (tr_has _ _ Tr). split; intros (n & A & B); exists n; (split; [exact A|]); rewrite app_nth1 in * by (apply Ln, A); exact B.
Qed.
Definition agree (x : list pair * em) (y : iem) : Prop :=
  trained (fst x) (snd x) /\ (forall p, In p (fst x) -> 0 < weight p) /\ fst y = fst x /\ (forall n, snd y n = oldof (snd x) n).
Lemma counts_ext : forall D ex ex' s t, (forall n, ex n = ex' n) -> counts D ex s t = counts D ex' s t.
Proof. intros. unfold counts. apply sumf_ext. intros n _. now rewrite H. Qed.
Lemma agree_prob : forall x y s t, agree x y -> pts (tab (snd x)) s t = iem_prob y s t.
Proof.
  intros x y s t (Tr & _ & F & S0). rewrite (trained_prob _ _ s t Tr). unfold iem_prob, rel_freq. cbn [fst snd]. rewrite F. f_equal; [apply counts_ext; intros; symmetry; apply S0|].
  apply sumf_ext. intros. apply counts_ext. intros; symmetry; apply S0.
Qed.
Lemma agree_step : forall x y o, agree x y -> legal (length (fst x)) [o] -> agree (em_step x o) (iem_op y o).
Proof.
  intros x y o A L. pose proof (agree_prob x y) as AP. destruct A as (Tr & W & F & S0). destruct o as [p|b e]; cbn in L |- *.
  - split; [apply trained_add; exact Tr|]. split; [|split; [cbn; now rewrite F|exact S0]]. intros q Hq. apply in_app_or in Hq. destruct Hq as [Hq|[<-|[]]]; [apply W, Hq|apply L].
  - destruct L as [L _]. change (match b with O => S e | S l => (e - l)%nat end) with (S e - b)%nat.
    assert (Hr : forall n, In n (seq b (S e - b)) -> (n < length (fst x))%nat) by (intros n Hn; apply in_seq in Hn; lia).
    destruct (train_pass (fst x) (seq b (S e - b)) (snd x) (fun p Hp _ => W p Hp) Tr (seq_NoDup _ _) Hr) as [T2 O2].
    split; [exact T2|]. split; [exact W|]. cbn [fst snd]. split; [exact F|]. intros n. unfold iem_train. cbn [fst snd]. rewrite O2, F. unfold range_of.
    destruct (in_dec Nat.eq_dec n (training_set (fst x) (seq b (S e - b)))) as [I|I].
    + apply training_set_in in I as [I1 I2]. destruct (in_dec Nat.eq_dec n (seq b (S e - b))); [|contradiction]. assert (U : usableb (fst x) n = true) by (apply len_ok; exact I2). rewrite U. cbn [andb].
      f_equal. rewrite (estep_ok _ _ (tr_inv _ _ Tr)). apply estep_ext. intros s t. symmetry. apply AP. exact (conj Tr (conj W (conj F S0))).
    + destruct (in_dec Nat.eq_dec n (seq b (S e - b))) as [I1|I1]; cbn [andb]; [|apply S0]. destruct (usableb (fst x) n) eqn:U; [|apply S0]. exfalso. apply I, training_set_in. split; [exact I1|apply len_ok, U].
Qed.
Lemma legal_cons : forall len o ops, legal len (o :: ops) -> legal len [o] /\ legal (match o with AddPair _ => S len | _ => len end) ops.
Proof. intros len [p|b e] ops H; cbn in *; tauto. Qed.
Lemma agree_run : forall ops x y, agree x y -> legal (length (fst x)) ops -> agree (fold_left em_step ops x) (fold_left iem_op ops y).
Proof.
  induction ops as [|o ops IH]; intros x y A L; cbn [fold_left]; [exact A|]. apply legal_cons in L as [L1 L2]. apply IH; [apply agree_step; assumption|].
  destruct o; cbn [em_step fst]; [rewrite app_length, Nat.add_1_r; exact L2|exact L2].
Qed.
Lemma agree_new : agree ([], em_new) iem_new.
Proof. split; [apply trained_new|]. split; [intros p []|]. split; reflexivity. Qed.
Theorem session : forall ops, legal 0 ops -> agree (fold_left em_step ops ([], em_new)) (fold_left iem_op ops iem_new).
Proof. intros ops L. apply agree_run; [apply agree_new|exact L]. Qed.
(** probabilities of a source word seen in training add up to one *)
Lemma trained_sum1 : forall D E s t, trained D E -> 0 < pts (tab E) s t -> sumf (pts (tab E) s) (vocab D) = 1.
Proof.
  intros D E s t Tr P. rewrite (sumf_ext _ (fun w => counts D (oldof E) s w * / sumf (counts D (oldof E) s) (vocab D))).
  2:{ intros w _. rewrite (trained_prob D E s w Tr). reflexivity. }
  rewrite sumf_scal_r. apply Rinv_r. intros Z. rewrite (trained_prob D E s t Tr) in P. unfold iem_prob, rel_freq in P. cbn [fst snd] in P. rewrite Z in P. unfold Rdiv in P. rewrite Rinv_0 in P. lra.
Qed.
(** ---- batch *)
Theorem batch_formula : forall D range E s t, (forall p, In p D -> usable p -> 0 < weight p) -> NoDup range -> (forall n, In n range -> (n < length D)%nat) -> tab_inv (tab E) ->
  let c s t := sumf (fun n => pair_count (nth n D no_pair) (estep (pts (tab E)) (nth n D no_pair)) s t) (training_set D range) in
  tab_inv (tab (efficientBatchTrainingForRange D range E)) /\ pts (tab (efficientBatchTrainingForRange D range E)) s t = rel_freq D c s t.
Proof.
  intros D range E s t W ND Hr I c. destruct (batch_pass D range E W ND Hr) as (I' & V & Hh). split; [exact I'|].
  assert (V' : forall s t, numv (tab (efficientBatchTrainingForRange D range E)) s t = c s t).
  { intros s0 t0. rewrite V. apply sumf_ext. intros n _. now rewrite estep_ok. }
  unfold rel_freq. rewrite (pts_rel _ s t (vocab D) I' (NoDup_nodup _ _)).
  - rewrite V'. f_equal. apply sumf_ext. intros; apply V'.
  - intros w Hw. apply Hh in Hw as (n & A & B). apply nodup_In, in_flat_map. exists (nth n D no_pair). apply training_set_in in A as [A _]. split; [apply nth_In, Hr, A|].
    unfold cooc, occ in B. destruct (filter _ _) as [|q l] eqn:Q; [congruence|]. assert (X : In q (q :: l)) by (left; reflexivity). rewrite <- Q in X. apply filter_In in X as [X1 X2].
    apply andb_true_iff in X2 as [_ X2]. apply N.eqb_eq in X2. destruct q as [j i]. apply positions_in in X1 as [Hj _]. cbn [fst] in X2. rewrite <- X2. apply nth_In, Hj.
Qed.
(** ---- log likelihood as the program prints it *)
Lemma loglik_val : forall T slm ps, (forall p, In p ps -> usable p -> 0 < total (pts T) (with_null (src p)) (trg p)) ->
  loglikelihood T slm ps = Fin (sumf (fun p => slm (length (src p)) (length (trg p)) + ln (total (pts T) (with_null (src p)) (trg p)))
                                  (filter (fun p => sentenceLengthIsOk (src p) && sentenceLengthIsOk (trg p)) ps)).
Proof.
  intros T slm ps H. unfold loglikelihood.
  assert (G : forall a, fold_left (fun a p => if sentenceLengthIsOk (src p) && sentenceLengthIsOk (trg p) then lgadd a (calcLgProb T slm (src p) (trg p)) else a) ps (Fin a)
     = Fin (a + sumf (fun p => slm (length (src p)) (length (trg p)) + ln (total (pts T) (with_null (src p)) (trg p))) (filter (fun p => sentenceLengthIsOk (src p) && sentenceLengthIsOk (trg p)) ps))).
  { induction ps as [|p ps IH]; intros a; cbn [fold_left filter]; [cbn; f_equal; lra|]. destruct (sentenceLengthIsOk (src p) && sentenceLengthIsOk (trg p)) eqn:U.
    - pose proof (H p (or_introl eq_refl) (proj1 (len_ok p) U)) as P. apply andb_true_iff in U as [U1 U2]. rewrite calcLgProb_ok by assumption.
      rewrite lgln_pos by (apply Rmult_lt_0_compat; [apply exp_pos|exact P]). rewrite ln_mult, ln_exp by (try apply exp_pos; exact P). cbn [lgadd]. rewrite IH; [|intros; apply H; [right; assumption|assumption]]. cbn [sumf]. f_equal. lra.
    - apply IH. intros; apply H; [right; assumption|assumption]. }
  rewrite (G 0). f_equal. lra.
Qed.
Lemma filter_map_swap : forall {A B} (f : A -> B) g l, filter g (map f l) = map f (filter (fun x => g (f x)) l).
Proof. intros A B f g l. induction l as [|x l IH]; cbn; [reflexivity|]. destruct (g (f x)); cbn; now rewrite IH. Qed.
Theorem loglik_monotone : forall D range E slm, (forall p, In p D -> weight p = 1) -> NoDup range -> (forall n, In n range -> (n < length D)%nat) -> tab_inv (tab E) ->
  thresholds_inactive (pts (tab E)) (map (fun n => nth n D no_pair) (training_set D range)) ->
  exists a b, loglikelihood (tab E) slm (map (fun n => nth n D no_pair) range) = Fin a /\
    loglikelihood (tab (efficientBatchTrainingForRange D range E)) slm (map (fun n => nth n D no_pair) range) = Fin b /\ a <= b.
Proof.
  intros D range E slm W ND Hr I Un. assert (Wp : forall p, In p D -> usable p -> 0 < weight p) by (intros p Hp _; rewrite W by exact Hp; lra).
  destruct (weighted_monotone D range E Wp ND Hr I Un) as [P M].
  rewrite !loglik_val.
  - do 2 eexists. split; [reflexivity|]. split; [reflexivity|]. rewrite !filter_map_swap. fold (usableb D). rewrite !sumf_map, !sumf_plus. apply Rplus_le_compat_l.
    assert (X : forall f : nat -> R, sumf f (filter (fun x => usableb D x) range) = sumf f (training_set D range)) by (intros f; rewrite sumf_filter; apply training_set_sum).
    unfold usableb in X. rewrite !X. 
    rewrite (sumf_ext _ (fun n => ln (total (pts (tab E)) (with_null (src (nth n D no_pair))) (trg (nth n D no_pair))))) in M.
    2:{ intros n Hn. apply training_set_in in Hn as [Hn _]. rewrite W by (apply nth_In, Hr, Hn). lra. }
    rewrite (sumf_ext (fun n => weight (nth n D no_pair) * ln (total (pts (tab (efficientBatchTrainingForRange D range E))) _ _)) (fun n => ln (total (pts (tab (efficientBatchTrainingForRange D range E))) (with_null (src (nth n D no_pair))) (trg (nth n D no_pair))))) in M.
    2:{ intros n Hn. apply training_set_in in Hn as [Hn _]. rewrite W by (apply nth_In, Hr, Hn). lra. }
    exact M.
  - intros p Hp U. apply in_map_iff in Hp as (n & <- & Hn). apply P. apply training_set_in. auto.
  - intros p Hp U. apply in_map_iff in Hp as (n & <- & Hn). apply P. apply training_set_in. auto.
Qed.
Lemma range_lt : forall b e len n, (e < len)%nat -> In n (range_of b e) -> (n < len)%nat.
Proof. intros b e len n H I. unfold range_of in I. apply in_seq in I. lia. Qed.
Lemma reached_ok : forall D E, reached D E -> tab_inv (tab E) /\ (forall p, In p D -> 0 < weight p).
Proof.
  intros D E R. induction R as [ops L|D E b e R [I W] H].
  - destruct (session ops L) as (Tr & W & _). split; [apply Tr|exact W].
  - split; [|exact W]. apply (batch_formula D (range_of b e) E 0%N 0%N); [intros; auto|apply seq_NoDup|intros n Hn; eapply range_lt; eauto|exact I].
Qed.
Lemma estep_post : forall T p j i, unsmoothed_at T (with_null (src p)) (nth j (trg p) 0%N) -> (forall w, In w (trg p) -> 0 < sumf (fun x => pts T x w) (with_null (src p))) ->
  (j < length (trg p))%nat -> (i <= length (src p))%nat -> nth i (nth j (new_of T p) []) 0 = posterior (pts T) (with_null (src p)) (trg p) j i.
Proof.
  intros T p j i U P Hj Hi. rewrite posterior_share; [|discriminate|exact P|exact Hj|cbn; lia]. unfold new_of, anji_aux.
  rewrite (nth_indep _ [] (anji_row T (with_null (src p)) 0%N)) by (now rewrite map_length). rewrite (map_nth (anji_row T _)). apply anji_row_share; [exact U|cbn; lia].
Qed.
