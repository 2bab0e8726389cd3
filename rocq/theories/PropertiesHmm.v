(** C70-C74: the HMM alignment model *)
From Coq Require Import Reals NArith Arith List Bool Lra Lia.
From Verif Require Import RSums MathModel MathProofs LogNum AligSpec AligModel AligProofs HmmSpec HmmModel HmmVitProofs HmmCacheProofs HmmFwdProofs HmmProofs HmmPostProofs.
Import ListNotations.
Open Scope R_scope.
(** the probabilities the model M gives, for the source sentence s *)
Definition trans (M : hmm) (s : list N) (prev i : nat) : R := exp (logaProb M prev (length s) i).
Definition emit (M : hmm) (s : list N) (i : nat) (w : N) : R := exp (logpts M (nth (i - 1) (s ++ repeat 0%N (length s)) 0%N) w).
Definition sent_ok (s : list N) : Prop := (1 <= length s <= 200)%nat.

(** C70: the alignment found is the one of a most probable path and the value its log-probability, unless every path is below exp(-99999) *)
Theorem C70_viterbi_optimal : forall M slm s t, smoothing_ok M -> tables_proper M -> ~ In 0%N s -> sent_ok s -> sent_ok t ->
  (length t = 1%nat \/ exists b, In b (paths (length s) (length t)) /\ exp (- 99999) < path_prob (trans M s) (emit M s) 0 b t) ->
  exists a A, obtainBestAlignment M slm s t = Some (slm (length s) (length t) + ln (path_prob (trans M s) (emit M s) 0 a t), A)
    /\ best_path (trans M s) (emit M s) (length s) t a
    /\ wI A = length s /\ wJ A = length t
    /\ forall i j, link A i j <-> exists k, nth_error a j = Some k /\ word_of (length s) k = S i.
Proof. intros M slm s t SM TP HN Hs Ht H. exact (viterbi_best M SM TP s t HN Hs Ht slm H). Qed.
Print Assumptions C70_viterbi_optimal.
(** the smoothing is a lower bound on the probability of a path: enough for the hypothesis *)
Theorem C70_smoothing_suffices : forall M s t, smoothing_ok M -> ~ In 0%N s -> sent_ok s -> sent_ok t ->
  exp (- 99999) < (lsf M / INR (HmmModel.vocab M) * (asf M / INR (2 * length s))) ^ length t ->
  exists b, In b (paths (length s) (length t)) /\ exp (- 99999) < path_prob (trans M s) (emit M s) 0 b t.
Proof.
  intros M s t SM HN Hs Ht H. destruct (floor_path M SM s t Hs Ht) as (b & B1 & B2). exists b. split; [exact B1|]. eapply Rlt_le_trans; [exact H|exact B2].
Qed.
Print Assumptions C70_smoothing_suffices.
(** otherwise the alignment says nothing: only the last word is aligned, with the first source word *)
Theorem C70_underflow_refuted : forall M slm s t, smoothing_ok M -> tables_proper M -> ~ In 0%N s -> sent_ok s -> sent_ok t -> (2 <= length t)%nat ->
  (forall b, In b (paths (length s) (length t)) -> path_prob (trans M s) (emit M s) 0 b t <= exp (- 99999)) ->
  exists A, obtainBestAlignment M slm s t = Some (slm (length s) (length t) + - 99999, A) /\ forall i j, link A i j <-> i = 0%nat /\ j = (length t - 1)%nat.
Proof. intros M slm s t SM TP HN Hs Ht H2 H. exact (viterbi_underflow M SM TP s t HN Hs Ht slm H2 H). Qed.
Print Assumptions C70_underflow_refuted.
Theorem C70_length_limit : forall M slm s t, ~ sent_ok s \/ ~ sent_ok t -> obtainBestAlignment M slm s t = Some (- 99999, w_init (length s) (length t)).
Proof.
  intros M slm s t H. unfold obtainBestAlignment, obtainBestAlignmentCached.
  destruct (sentenceLengthIsOk s) eqn:E1; [|reflexivity]. destruct (sentenceLengthIsOk t) eqn:E2; [|reflexivity].
  apply len_ok in E1, E2. unfold sent_ok in H. lia.
Qed.
Print Assumptions C70_length_limit.
(** a source sentence with the word NULL: the length the transition model conditions on is not that of the sentence (0 for the sentence "NULL", by which the code divides) *)
Theorem C70_null_word_refuted : forall s, In 0%N s -> (getSrcLen (extendWithNullWord s) < length s)%nat.
Proof.
  intros s H. unfold extendWithNullWord. rewrite srcLen_app, srcLen_null, Nat.add_0_r. unfold getSrcLen. induction s as [|w s IH]; [destruct H|].
  assert (G : (length (filter (fun w => negb (N.eqb w NULL_WORD)) s) <= length s)%nat) by (clear; induction s as [|x s IHs]; cbn; [lia|]; destruct (negb _); cbn; lia).
  cbn [filter length]. destruct (N.eqb_spec w NULL_WORD) as [->|Z]; cbn [negb]; [lia|]. cbn [length]. destruct H as [->|H]; [now destruct Z|]. specialize (IH H). lia.
Qed.
Print Assumptions C70_null_word_refuted.

(** C71: the sentence probability is the sum over all paths; it is at least that of the best alignment *)
Theorem C71_forward_is_sum : forall M slm s t, ~ In 0%N s -> sent_ok s -> sent_ok t ->
  calcLgProb M slm s t = slm (length s) (length t) + ln (total_prob (trans M s) (emit M s) (length s) t).
Proof. intros M slm s t HN Hs Ht. exact (forward_is_total M s t HN Hs Ht slm). Qed.
Print Assumptions C71_forward_is_sum.
Lemma pp_pos : forall M s u a p, 0 < path_prob (trans M s) (emit M s) p a u.
Proof.
  intros M s. induction u as [|w u IH]; intros [|x a] p; cbn [path_prob]; try lra. specialize (IH a x). unfold trans at 1, emit at 1. 
  apply Rmult_lt_0_compat; [apply Rmult_lt_0_compat; apply exp_pos|exact IH].
Qed.
Theorem C71_viterbi_below_forward : forall M slm s t v A, smoothing_ok M -> tables_proper M -> ~ In 0%N s -> sent_ok s -> sent_ok t ->
  (length t = 1%nat \/ exists b, In b (paths (length s) (length t)) /\ exp (- 99999) < path_prob (trans M s) (emit M s) 0 b t) ->
  obtainBestAlignment M slm s t = Some (v, A) -> v <= calcLgProb M slm s t.
Proof.
  intros M slm s t v A SM TP HN Hs Ht H E. destruct (C70_viterbi_optimal M slm s t SM TP HN Hs Ht H) as (a & A' & E' & B & _).
  rewrite E in E'. inversion E'; subst. rewrite C71_forward_is_sum by auto. apply Rplus_le_compat_l. pose proof (pp_pos M s t a 0) as P.
  assert (G : path_prob (trans M s) (emit M s) 0 a t <= total_prob (trans M s) (emit M s) (length s) t).
  { unfold total_prob. apply (sumf_ge_one (fun a => path_prob (trans M s) (emit M s) 0 a t)); [intros x _; apply Rlt_le, pp_pos|exact (proj1 B)]. }
  destruct (Rle_lt_or_eq_dec _ _ G) as [L|L]; [apply Rlt_le, ln_increasing; auto|rewrite <- L; lra].
Qed.
Print Assumptions C71_viterbi_below_forward.

(** C72: the transition and lexical parameters are distributions *)
Theorem C72_transition_value : forall M n prev i, smoothing_ok M -> (1 <= n)%nat -> (prev <= 2 * n)%nat -> (1 <= i <= 2 * n)%nat ->
  (allowed n prev i -> exp (logaProb M prev n i)
     = interpolated (asf M) (raw_trans (aligNumer M) (aligDenom M) (exp (- 99999)) (p0 M) n prev i) (length (dests n prev))) /\
  (~ allowed n prev i -> exp (logaProb M prev n i) = exp (- 99999)).
Proof.
  intros M n prev i SM N P I. destruct (trans_value M SM n prev i N P I) as [H1 H2]. split; intros A; [exact (H1 A)|]. rewrite (H2 A). reflexivity.
Qed.
Print Assumptions C72_transition_value.
Theorem C72_destinations : forall n prev, (1 <= n)%nat -> (prev <= 2 * n)%nat -> NoDup (dests n prev) /\ forall i, In i (dests n prev) <-> allowed n prev i.
Proof. intros n prev N P. split; [now apply dests_nodup|]. intros i. now apply in_dests. Qed.
Print Assumptions C72_destinations.
(** a row of the tables is complete: every destination was counted, and the total is the sum of the counts *)
Definition row_complete (M : hmm) (n prev : nat) : Prop :=
  exists d num, aligDenom M (origin n prev) n = Some d /\
  match p0 M with
  | None => (forall i, In i (seq 1 n ++ [(n + (if Nat.eqb prev 0 then 1 else origin n prev))%nat]) -> aligNumer M (origin n prev) n i = Some (num i)) /\
            sumf (fun i => exp (num i)) (seq 1 n) + (if Nat.eqb prev 0 then INR n * exp (num (n + 1)%nat) else exp (num (n + origin n prev)%nat)) = exp d
  | Some _ => (forall i, In i (seq 1 n) -> aligNumer M (origin n prev) n i = Some (num i)) /\ sumf (fun i => exp (num i)) (seq 1 n) = exp d
  end.
Theorem C72_transitions_sum_to_one : forall M n prev, smoothing_ok M -> (1 <= n)%nat -> (prev <= 2 * n)%nat -> row_complete M n prev ->
  sumf (fun i => exp (logaProb M prev n i)) (dests n prev) = 1.
Proof.
  intros M n prev SM N P (d & num & HD & H). rewrite (trans_sum M SM n prev N P). 
  enough (G : sumf (raw_trans (aligNumer M) (aligDenom M) (exp SMALL_LG_NUM) (p0 M) n prev) (dests n prev) = 1) by (rewrite G; lra).
  unfold dests. rewrite sumf_app. pose proof (exp_pos d) as PD. assert (0 < INR n) by (apply lt_0_INR; lia).
  assert (W : forall f, (forall i, (1 <= i <= n)%nat -> raw_trans (aligNumer M) (aligDenom M) (exp SMALL_LG_NUM) (p0 M) n prev i = f i) ->
    sumf (raw_trans (aligNumer M) (aligDenom M) (exp SMALL_LG_NUM) (p0 M) n prev) (seq 1 n) = sumf f (seq 1 n)).
  { intros f F. apply sumf_ext. intros i I. apply in_seq in I. apply F. lia. }
  destruct (p0 M) as [p|] eqn:EP.
  - destruct H as [HN HS]. rewrite (W (fun i => (1 - p) * (exp (num i) * / exp d))).
    2:{ intros i I. unfold raw_trans. destruct (Nat.leb_spec i n); [|lia]. rewrite HD, HN by (apply in_seq; lia). reflexivity. }
    rewrite sumf_scal, sumf_scal_r, HS, Rinv_r by lra.
    enough (G : sumf (raw_trans (aligNumer M) (aligDenom M) (exp SMALL_LG_NUM) (Some p) n prev) (if Nat.eqb prev 0 then seq (n + 1) n else [(n + origin n prev)%nat]) = p) by (rewrite G; lra).
    destruct (Nat.eqb_spec prev 0) as [->|Z].
    + rewrite (sumf_ext _ (fun _ => p / INR n)); [rewrite sumf_const, seq_length; field; lra|]. intros i I. apply in_seq in I. unfold raw_trans. destruct (Nat.leb_spec i n); [lia|]. reflexivity.
    + assert (1 <= origin n prev)%nat by (unfold origin; destruct (Nat.ltb_spec n prev); lia).
      cbn [sumf]. unfold raw_trans. destruct (Nat.leb_spec (n + origin n prev) n); [lia|]. destruct (Nat.eqb_spec prev 0); [lia|]. lra.
  - destruct H as [HN HS]. rewrite (W (fun i => exp (num i) * / exp d)).
    2:{ intros i I. unfold raw_trans, cell. destruct (Nat.leb_spec i n); [|lia]. rewrite HD, HN by (apply in_app_iff; left; apply in_seq; lia). reflexivity. }
    rewrite sumf_scal_r. set (c := (n + (if Nat.eqb prev 0 then 1 else origin n prev))%nat) in *.
    assert (HC : aligNumer M (origin n prev) n c = Some (num c)) by (apply HN, in_app_iff; right; left; reflexivity).
    assert (RC : forall i, (n < i)%nat -> raw_trans (aligNumer M) (aligDenom M) (exp SMALL_LG_NUM) None n prev i = exp (num c) * / exp d).
    { intros i I. unfold raw_trans, cell. destruct (Nat.leb_spec i n); [lia|]. fold c. rewrite HC, HD. reflexivity. }
    enough (G : sumf (raw_trans (aligNumer M) (aligDenom M) (exp SMALL_LG_NUM) None n prev) (if Nat.eqb prev 0 then seq (n + 1) n else [(n + origin n prev)%nat])
      = (if Nat.eqb prev 0 then INR n * exp (num (n + 1)%nat) else exp (num (n + origin n prev)%nat)) * / exp d).
    { rewrite G, <- Rmult_plus_distr_r, HS. apply Rinv_r. lra. }
    destruct (Nat.eqb_spec prev 0) as [->|Z].
    + rewrite (sumf_ext _ (fun _ => exp (num c) * / exp d)); [rewrite sumf_const, seq_length; unfold c; rewrite Rmult_assoc; reflexivity|]. intros i I. apply in_seq in I. apply RC. lia.
    + assert (1 <= origin n prev)%nat by (unfold origin; destruct (Nat.ltb_spec n prev); lia). cbn [sumf]. rewrite RC by lia. unfold c. lra.
Qed.
Print Assumptions C72_transitions_sum_to_one.
(** for a source length never seen in training, the transitions of the plain model sum to the smoothing factor (plus k*exp(-99999)), not to 1 *)
Theorem C72_unseen_length_refuted : forall M n prev, smoothing_ok M -> p0 M = None -> (1 <= n)%nat -> (prev <= 2 * n)%nat -> aligDenom M (origin n prev) n = None ->
  sumf (fun i => exp (logaProb M prev n i)) (dests n prev) = asf M + (1 - asf M) * (INR (length (dests n prev)) * exp (- 99999)).
Proof.
  intros M n prev SM E N P HD. rewrite (trans_sum M SM n prev N P), E. change (- 99999) with SMALL_LG_NUM. rewrite <- sumf_const.
  rewrite (sumf_ext _ (fun _ => exp SMALL_LG_NUM) (dests n prev)); [lra|]. intros i I. unfold raw_trans, cell. rewrite HD.
  destruct (Nat.leb i n); repeat match goal with |- context [match ?x with Some _ => _ | None => _ end] => destruct x end; reflexivity.
Qed.
Print Assumptions C72_unseen_length_refuted.
(** lexical probabilities of a source word over the target vocabulary V, when the counts of the words seen with it add up to its total;
    k words not seen with it: each adds exp(-99999) *)
Theorem C72_lexical_sum : forall M s V d num, smoothing_ok M -> length V = HmmModel.vocab M -> lexDenom M s = Some d ->
  (forall w, lexNumer M s w = None \/ lexNumer M s w = Some (num w)) ->
  let seen_with := fun w => match lexNumer M s w with Some _ => true | None => false end in
  sumf (fun w => exp (num w)) (filter seen_with V) = exp d ->
  sumf (fun w => exp (logpts M s w)) V = 1 + (1 - lsf M) * (INR (length (filter (fun w => negb (seen_with w)) V)) * exp (- 99999)).
Proof.
  intros M s V d num SM LV HD HN sw HS. assert (NV : V <> []) by (intros ->; destruct SM as (_ & _ & Q & _); cbn in LV; lia).
  rewrite (sumf_ext _ (fun w => interpolated (lsf M) (exp (unsmoothed_logpts M s w)) (length V))) by (intros w _; rewrite LV; apply logpts_exp; auto).
  rewrite (interp_sum (lsf M) (fun w => exp (unsmoothed_logpts M s w)) V NV).
  enough (G : sumf (fun w => exp (unsmoothed_logpts M s w)) V = 1 + INR (length (filter (fun w => negb (sw w)) V)) * exp (- 99999)) by (rewrite G; lra).
  transitivity (sumf (fun w => exp (num w)) (filter sw V) * / exp d + INR (length (filter (fun w => negb (sw w)) V)) * exp (- 99999)).
  2:{ rewrite HS, Rinv_r by (pose proof (exp_pos d); lra). reflexivity. }
  clear LV NV HS. induction V as [|w V IH]; [cbn; lra|]. cbn [sumf filter]. rewrite IH. unfold unsmoothed_logpts. rewrite HD. unfold sw at 3 6.
  destruct (HN w) as [->| ->]; cbn [negb].
  - cbn [length]. rewrite S_INR. unfold SMALL_LG_NUM. lra.
  - cbn [sumf]. rewrite exp_minus. unfold Rdiv. lra.
Qed.
Print Assumptions C72_lexical_sum.
Theorem C72_unseen_word_refuted : forall M s V, smoothing_ok M -> length V = HmmModel.vocab M -> lexDenom M s = None ->
  sumf (fun w => exp (logpts M s w)) V = lsf M + (1 - lsf M) * (INR (length V) * exp (- 99999)).
Proof.
  intros M s V SM LV HD. assert (NV : V <> []) by (intros ->; destruct SM as (_ & _ & Q & _); cbn in LV; lia).
  rewrite (sumf_ext _ (fun w => interpolated (lsf M) (exp (- 99999)) (length V))).
  - rewrite (interp_sum (lsf M) (fun _ => exp (- 99999)) V NV), sumf_const. lra.
  - intros w _. rewrite LV, logpts_exp by auto. unfold unsmoothed_logpts. rewrite HD. destruct (lexNumer M s w); reflexivity.
Qed.
Print Assumptions C72_unseen_word_refuted.

(** C73: the caches are invisible.  A cache handed from call to call (any sentences, same model): *)
Fixpoint align_all (M : hmm) slm (ps : list (list N * list N)) (c : cache) : option (list (R * wam)) :=
  match ps with
  | [] => Some []
  | (s, t) :: r => match obtainBestAlignmentCached M slm s t c with Some (v, A, c') => option_map (cons (v, A)) (align_all M slm r c') | None => None end
  end.
Fixpoint align_each (M : hmm) slm (ps : list (list N * list N)) : option (list (R * wam)) :=
  match ps with
  | [] => Some []
  | (s, t) :: r => match obtainBestAlignment M slm s t with Some q => option_map (cons q) (align_each M slm r) | None => None end
  end.
Theorem C73_alignment_cache_transparent : forall M slm ps, align_all M slm ps [] = align_each M slm ps.
Proof.
  intros M slm. assert (G : forall ps c, cache_ok M c -> align_all M slm ps c = align_each M slm ps); [|intros; apply G, cache_ok_nil].
  induction ps as [|[s t] ps IH]; intros c H; [reflexivity|]. cbn [align_all align_each]. unfold obtainBestAlignment.
  pose proof (best_cached_ok M slm s t c [] H (cache_ok_nil M)) as B.
  destruct (obtainBestAlignmentCached M slm s t c) as [[[v A] c']|], (obtainBestAlignmentCached M slm s t []) as [[[v2 A2] c2']|]; try tauto.
  destruct B as (-> & -> & K & _). rewrite (IH c' K). reflexivity.
Qed.
Print Assumptions C73_alignment_cache_transparent.
(** the member cache: room is made for every index before it is read; then no access is out of range and every value is the uncached one *)
Fixpoint legal (room : option nat) (ops : list cop) : Prop :=
  match ops with
  | [] => True
  | Room n :: r => legal (Some (match room with Some m => Nat.max m n | None => n end)) r
  | Ask p s i :: r => match room with Some m => (p <= m /\ s <= m /\ i <= m)%nat | None => False end /\ legal room r
  end.
Fixpoint uncached (M : hmm) (ops : list cop) : list R :=
  match ops with [] => [] | Room _ :: r => uncached M r | Ask p s i :: r => logaProb M p s i :: uncached M r end.
Theorem C73_member_cache_transparent : forall M ops, legal None ops -> crun M ops [] = Some (uncached M ops).
Proof.
  intros M. assert (G : forall ops room c, cache_ok M c -> cube c -> match room with Some m => (m < length c)%nat | None => True end -> legal room ops -> crun M ops c = Some (uncached M ops)).
  - induction ops as [|[n|p s i] ops IH]; intros room c H C R L; [reflexivity| |]; cbn [crun uncached legal] in *.
    + destruct (room_cube n c C) as (C' & L1 & L2). eapply IH; [apply room_ok; auto|exact C'| |exact L]. destruct room; lia.
    + destruct L as [K L]. destruct room as [m|]; [|tauto]. destruct (ask_ok M c p s i H C) as (c' & E & H' & C' & LL); try lia.
      rewrite E, (IH (Some m) c' H' C'); auto. rewrite LL. exact R.
  - intros ops L. apply (G ops None []); auto; [apply cache_ok_nil|]. intros a [].
Qed.
Print Assumptions C73_member_cache_transparent.

(** C74: the expected values of the E-step are the posterior state probabilities: position j, state i; each joint probability is
    floored at exp(-99999) and the logarithm of the posterior clamped to [-9,-0.01] *)
Theorem C74_posteriors : forall M s t j i, ~ In 0%N s -> (1 <= length s)%nat -> (j < length t)%nat -> (1 <= i <= 2 * length s)%nat ->
  let joint := state_joint (trans M s) (emit M s) (length s) t j in
  nth_error (nth j (calc_lanji M (s ++ repeat 0%N (length s)) t) []) (i - 1)
  = Some (Rmax (-9) (Rmin (- / 100) (ln (Rmax (joint i) (exp (- 99999)) / sumf (fun i' => Rmax (joint i') (exp (- 99999))) (seq 1 (2 * length s)))))).
Proof.
  intros M s t j i HN Hs J I joint. pose proof (lanji_spec M s t HN Hs j i J I) as E. etransitivity; [exact E|]. f_equal.
  change (clamp (ln (floored (joint i) / sumf (fun i' => floored (joint i')) (seq 1 (2 * length s)))) = Rmax (-9) (Rmin (- / 100) (ln (floored (joint i) / sumf (fun i' => floored (joint i')) (seq 1 (2 * length s)))))).
  generalize (ln (floored (joint i) / sumf (fun i' => floored (joint i')) (seq 1 (2 * length s)))). intros x.
  unfold clamp. destruct (Rlt_dec (- / 100) x); [rewrite Rmin_left by lra|rewrite Rmin_right by lra].
  - destruct (Rlt_dec (- / 100) (-9)); [lra|]. rewrite Rmax_right; lra.
  - destruct (Rlt_dec x (-9)); [rewrite Rmax_left; lra|rewrite Rmax_right; lra].
Qed.
Print Assumptions C74_posteriors.
Theorem C74_posteriors_plain : forall M s t j i, ~ In 0%N s -> (1 <= length s)%nat -> (j < length t)%nat -> (1 <= i <= 2 * length s)%nat ->
  (forall i', (1 <= i' <= 2 * length s)%nat -> exp (- 99999) <= state_joint (trans M s) (emit M s) (length s) t j i') ->
  nth_error (nth j (calc_lanji M (s ++ repeat 0%N (length s)) t) []) (i - 1)
  = Some (Rmax (-9) (Rmin (- / 100) (ln (state_post (trans M s) (emit M s) (length s) t j i)))).
Proof.
  intros M s t j i HN Hs J I H. rewrite C74_posteriors by auto. do 3 f_equal. f_equal. unfold state_post. fold (state_joint (trans M s) (emit M s) (length s) t j i).
  rewrite Rmax_left by auto. f_equal. etransitivity; [|exact (total_joint M s t Hs j J)]. apply sumf_ext. intros i' I'. apply in_seq in I'. rewrite Rmax_left; [reflexivity|]. apply H. lia.
Qed.
Print Assumptions C74_posteriors_plain.
(** the posteriors are a distribution over the states *)
Theorem C74_posteriors_sum : forall M s t j, (j < length t)%nat -> (1 <= length s)%nat -> sumf (state_post (trans M s) (emit M s) (length s) t j) (seq 1 (2 * length s)) = 1.
Proof.
  intros M s t j J Hs. unfold state_post, Rdiv.
  rewrite (sumf_scal_r (/ total_prob (trans M s) (emit M s) (length s) t) (state_joint (trans M s) (emit M s) (length s) t j)).
  change (sumf (state_joint (trans M s) (emit M s) (length s) t j) (seq 1 (2 * length s))) with (sumf (fun i => state_joint (trans M s) (emit M s) (length s) t j i) (seq 1 (2 * length s))).
  pose proof (total_joint M s t Hs j J) as E. change (sumf (fun i => state_joint (trans M s) (emit M s) (length s) t j i) (seq 1 (2 * length s)) = total_prob (trans M s) (emit M s) (length s) t) in E.
  rewrite E. apply Rinv_r. apply Rgt_not_eq. unfold total_prob. apply (sumf_pos (fun a => path_prob (trans M s) (emit M s) 0 a t) _ (repeat 1%nat (length t))).
  - intros. apply Rlt_le, pp_pos.
  - apply in_paths. split; [apply repeat_length|]. apply Forall_forall. intros x X. apply repeat_spec in X. subst. apply in_seq. lia.
  - apply pp_pos.
Qed.
Print Assumptions C74_posteriors_sum.

(** a model with counts: target word 4 is seen with every source word; uniform transitions *)
Definition demo : hmm := {| lexNumer := fun s t => if N.eqb t 4 then Some 0 else None; lexDenom := fun _ => Some 0;
  aligNumer := fun q n i => Some 0; aligDenom := fun q n => Some (ln (INR (if Nat.eqb q 0 then 2 * n else n + 1))); HmmModel.vocab := 8; lsf := / 10; asf := 3 / 10; p0 := None |}.
Lemma demo_ok : smoothing_ok demo /\ tables_proper demo.
Proof.
  split; [repeat split; cbn; try lra; lia|]. split; cbn.
  - intros s t n d H1 H2. destruct (N.eqb t 4); inversion H1; inversion H2; lra.
  - intros p sl i n d H1 H2. inversion H1; inversion H2. generalize (if (p =? 0)%nat then (sl + (sl + 0))%nat else (sl + 1)%nat). intros [|k].
    + replace (INR 0) with 0 by reflexivity. unfold ln. destruct (Rlt_dec 0 0) as [Q|Q]; [destruct (Rlt_irrefl 0 Q)|apply Rle_refl].
    + apply Rle_trans with (ln 1); [rewrite ln_1; lra|]. destruct (Nat.eq_dec k 0) as [->|K]; [cbn; lra|]. apply Rlt_le, ln_increasing; [lra|]. replace 1 with (INR 1) by reflexivity. apply lt_INR. lia.
Qed.
Example C70_nonvacuous : exists M s t, smoothing_ok M /\ tables_proper M /\ ~ In 0%N s /\ sent_ok s /\ sent_ok t /\ length t = 3%nat
  /\ exp (- 99999) < (lsf M / INR (HmmModel.vocab M) * (asf M / INR (2 * length s))) ^ length t.
Proof.
  exists demo, [3%N; 5%N], [4%N; 6%N; 4%N]. destruct demo_ok.
  split; [auto|]. split; [auto|]. split; [intros [?|[?|[]]]; discriminate|]. split; [split; cbn; lia|]. split; [split; cbn; lia|]. split; [reflexivity|].
  cbn [length demo lsf asf HmmModel.vocab]. replace (INR 8) with 8 by (cbn; lra). replace (INR (2 * 2)) with 4 by (cbn; lra).
  apply Rlt_trans with (exp (- 31)); [apply exp_increasing; lra|]. replace (exp (-31)) with (exp (Ropp 31)) by (f_equal; lra). rewrite exp_Ropp.
  assert (E : 2 ^ 31 <= exp 31).
  { assert (G : forall k, 2 ^ k <= exp (INR k)).
    { assert (2 <= exp 1) by (pose proof (exp_ineq1 1 ltac:(lra)); lra).
      induction k as [|k IH]; [cbn; rewrite exp_0; lra|]. rewrite S_INR, exp_plus. cbn [pow]. rewrite (Rmult_comm 2). apply Rmult_le_compat; try lra. apply pow_le; lra. }
    specialize (G 31%nat). replace (INR 31) with 31 in G by (cbn; lra). exact G. }
  apply Rle_lt_trans with (/ 2 ^ 31); [apply Rinv_le_contravar; [apply pow_lt; lra|exact E]|]. lra.
Qed.
Example C71_nonvacuous : ~ In 0%N [3%N; 5%N] /\ sent_ok [3%N; 5%N] /\ sent_ok [4%N; 6%N; 4%N].
Proof. split; [intros [?|[?|[]]]; discriminate|]. repeat split; cbn; lia. Qed.
Example C72_nonvacuous : smoothing_ok demo /\ row_complete demo 3 2 /\ row_complete demo 3 0 /\ row_complete demo 3 5.
Proof.
  split; [apply demo_ok|].
  assert (G : forall k, exp (ln (INR (S k))) = INR (S k)) by (intros; apply exp_ln, lt_0_INR; lia).
  split; [|split]; (eexists; exists (fun _ => 0); split; [reflexivity|]); cbn [demo p0]; (split; [reflexivity|]); rewrite exp_0; (etransitivity; [|symmetry; apply G]); cbn; lra.
Qed.
Example C73_nonvacuous : legal None [Room 4; Ask 0 2 3; Ask 1 2 4; Room 2; Ask 1 2 4; Room 8; Ask 8 7 1; Ask 0 2 3].
Proof. cbn. repeat split; lia. Qed.
Example C74_nonvacuous : ~ In 0%N [3%N; 5%N] /\ (1 <= length [3%N; 5%N])%nat /\ (1 < length [4%N; 6%N; 4%N])%nat /\ (1 <= 4 <= 2 * length [3%N; 5%N])%nat.
Proof. split; [intros [?|[?|[]]]; discriminate|]. repeat split; cbn; lia. Qed.
