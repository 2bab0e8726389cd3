From Coq Require Import Reals NArith Arith List Bool Lra Lia.
From Verif Require Import RSums MathModel MathProofs LogNum Ibm1Spec HmmSpec HmmModel HmmVitProofs HmmCacheProofs HmmFwdProofs HmmProofs HmmPostProofs Ibm2Model HmmTrainModel HmmTrainSpec.
Import ListNotations.
Open Scope R_scope.
Lemma exp_le : forall x y, x <= y -> exp x <= exp y.
Proof. intros x y [H| ->]; [left; now apply exp_increasing|lra]. Qed.
Lemma clamp_exp : forall x, exp (clamp x) = clamped (exp x).
Proof.
  intros x. unfold clamp, clamped. destruct (Rlt_dec (- / 100) x) as [L|L].
  - destruct (Rlt_dec (- / 100) (-9)) as [Q|Q]; [lra|]. rewrite Rmin_left by (apply exp_le; lra). rewrite Rmax_right; [reflexivity|apply exp_le; lra].
  - rewrite Rmin_right by (apply exp_le; lra). destruct (Rlt_dec x (-9)) as [Q|Q]; [rewrite Rmax_left by (apply exp_le; lra); reflexivity|rewrite Rmax_right by (apply exp_le; lra); reflexivity].
Qed.
Lemma floor_lg_exp : forall x, exp (floor_lg x) = at_least_tiny (exp x).
Proof.
  intros x. unfold floor_lg, at_least_tiny, tiny. change (- 99999) with SMALL_LG_NUM. destruct (Rlt_dec x SMALL_LG_NUM); [rewrite Rmax_right by (apply exp_le; lra)|rewrite Rmax_left by (apply exp_le; lra)]; reflexivity.
Qed.
Lemma lsum_exp : forall l, l <> [] -> exp (lsum l) = sumf exp l.
Proof. intros [|v r] H; [congruence|]. cbn [lsum sumf]. apply fold_sumlog. Qed.
Lemma sumf_concat : forall {A} (f : A -> R) l, sumf f (concat l) = sumf (sumf f) l.
Proof. induction l; [reflexivity|]. cbn [concat sumf]. rewrite sumf_app, IHl. reflexivity. Qed.
(** ---- two consecutive states *)
Section PAIR.
Context {T : Type}.
Variables (tr : nat -> nat -> R) (em : nat -> T -> R).
Notation P := (path_prob tr em).
Lemma joint_pair : forall c t A w u i' i, is_alpha tr em c t A -> t <> [] -> NoDup c -> In i' c -> In i c ->
  sumf (fun a => P 0%nat a (t ++ w :: u) * (if Nat.eqb (nth (length t - 1) a 0%nat) i' && Nat.eqb (nth (length t) a 0%nat) i then 1 else 0)) (seqs c (length (t ++ w :: u)))
  = A i' * tr i' i * em i w * beta_of tr em c u i.
Proof.
  intros c t A w u i' i H NE ND I1 I2. rewrite app_length, seqs_app.
  transitivity (sumf (fun a => P 0%nat a t * ((if Nat.eqb (last a 0%nat) i' then 1 else 0) * (tr (last a 0%nat) i * em i w * beta_of tr em c u i))) (seqs c (length t))).
  - apply sumf_ext. intros a Ha. apply seqs_in in Ha as [La _].
    assert (Ne : a <> []) by (intros ->; destruct t; [congruence|discriminate]).
    cbn [length seqs]. rewrite sumf_flat_map.
    transitivity (sumf (fun x => (P 0%nat a t * (if Nat.eqb (last a 0%nat) i' then 1 else 0) * (tr (last a 0%nat) x * em x w * beta_of tr em c u x)) * (if Nat.eqb x i then 1 else 0)) c).
    + apply sumf_ext. intros x _. rewrite sumf_map. unfold beta_of. rewrite <- sumf_scal. rewrite <- sumf_scal. rewrite <- sumf_scal_r. apply sumf_ext. intros b Hb.
      rewrite path_app by exact La. rewrite app_nth1 by (rewrite La; destruct t; [congruence|cbn; lia]). rewrite <- La, <- last_nth. rewrite app_nth2 by lia. rewrite Nat.sub_diag. cbn [nth path_prob].
      destruct (Nat.eqb (last a 0%nat) i'), (Nat.eqb x i); cbn [andb]; lra.
    + rewrite (sumf_ind (fun x => P 0%nat a t * (if Nat.eqb (last a 0%nat) i' then 1 else 0) * (tr (last a 0%nat) x * em x w * beta_of tr em c u x)) c i ND I2). lra.
  - etransitivity; [exact (H (fun k => (if Nat.eqb k i' then 1 else 0) * (tr k i * em i w * beta_of tr em c u i)))|].
    transitivity (sumf (fun k => (A k * (tr k i * em i w * beta_of tr em c u i)) * (if Nat.eqb k i' then 1 else 0)) c); [apply sumf_ext; intros; lra|].
    rewrite (sumf_ind (fun k => A k * (tr k i * em i w * beta_of tr em c u i)) c i' ND I1). lra.
Qed.
End PAIR.
Lemma nth_map_seq1 : forall (g : nat -> R) m i d, (1 <= i <= m)%nat -> nth (i - 1) (map g (seq 1 m)) d = g i.
Proof. intros g m i d H. rewrite (nth_indep _ d (g 0%nat)) by (rewrite map_length, seq_length; lia). rewrite map_nth, seq_nth by lia. f_equal. lia. Qed.
Lemma nth_map_seq1' : forall {B} (g : nat -> B) m i d, (1 <= i <= m)%nat -> nth (i - 1) (map g (seq 1 m)) d = g i.
Proof. intros B g m i d H. rewrite (nth_indep _ d (g 0%nat)) by (rewrite map_length, seq_length; lia). rewrite map_nth, seq_nth by lia. f_equal. lia. Qed.
Section L.
Variable M : hmm.
Variables (s t : list N).
Hypothesis HN : ~ In NULL_WORD s.
Hypothesis Hs : (1 <= length s)%nat.
Let n := length s.
Let ns := extendWithNullWord s.
Let tr p i := exp (logaProb M p n i).
Let em i w := exp (logpts M (nth (i - 1) ns NULL_WORD) w).
Let sts := seq 1 (2 * n).
Let nsa := extendWithNullWordAlig (p0 M) s.
Let K := counted (p0 M) n.
Let cts := seq 1 K.
Lemma ns_len : length ns = (2 * n)%nat. Proof. unfold ns, n. apply extend_len. Qed.
Lemma slen_n : getSrcLen ns = n. Proof. apply srcLen_extend. exact HN. Qed.
Lemma K_range : (1 <= K <= 2 * n)%nat. Proof. unfold K, counted, n. destruct (p0 M); lia. Qed.
Lemma nsa_len : length nsa = K. Proof. unfold nsa, K, extendWithNullWordAlig, counted. destruct (p0 M); [reflexivity|apply ns_len]. Qed.
Lemma aslen_n : getSrcLen nsa = n.
Proof.
  unfold nsa, extendWithNullWordAlig. destruct (p0 M); [|apply slen_n]. unfold getSrcLen, n. f_equal. clear - HN. induction s as [|w l IH]; [reflexivity|]. cbn [filter].
  destruct (N.eqb_spec w NULL_WORD) as [->|_]; [exfalso; apply HN; left; reflexivity|]. cbn [negb]. f_equal. apply IH. intros H; apply HN; right; exact H.
Qed.
Lemma nsa_nth : forall i, (1 <= i <= K)%nat -> nth (i - 1) nsa NULL_WORD = nth (i - 1) ns NULL_WORD.
Proof. intros i H. unfold nsa, K, ns, extendWithNullWordAlig, extendWithNullWord, counted in *. destruct (p0 M); [|reflexivity]. rewrite app_nth1; [reflexivity|fold n; lia]. Qed.
Lemma null0 : forall i, (1 <= i)%nat -> isNullAlig 0 n i = negb (Nat.leb i n).
Proof. intros i H. unfold isNullAlig. destruct (Nat.leb i n); reflexivity. Qed.
Lemma next_cols_nth : forall t' als bes k w al be, nth_error t' k = Some w -> nth_error als k = Some al -> nth_error bes k = Some be ->
  nth k (next_cols M n nsa t' als bes) [] = next_col M n nsa w al be.
Proof.
  induction t' as [|w0 t' IH]; intros als bes k w al be H1 H2 H3; [destruct k; discriminate|].
  destruct als as [|a als]; [destruct k; discriminate|]. destruct bes as [|b bes]; [destruct k; discriminate|].
  destruct k as [|k]; cbn in H1, H2, H3; [inversion H1; inversion H2; inversion H3; subst; reflexivity|]. cbn [next_cols nth]. apply IH; assumption.
Qed.
Lemma state_joint0 : forall w u i, t = w :: u -> In i sts -> state_joint tr em n t 0 i = tr 0%nat i * em i w * beta_of tr em sts u i.
Proof.
  intros w u i E I. unfold state_joint, paths. rewrite sumf_filter.
  pose proof (joint_ab tr em sts [w] _ u (fun x => if Nat.eqb x i then 1 else 0) (alpha_1 tr em sts w)) as Q. change ([w] ++ u) with (w :: u) in Q. rewrite <- E in Q.
  cbn [length Nat.sub] in Q. etransitivity; [exact (Q ltac:(discriminate))|].
  apply (sumf_ind (fun i => tr 0%nat i * em i w * beta_of tr em sts u i) sts i (seq_NoDup _ _) I).
Qed.
Definition fw i := at_least_tiny (state_joint tr em n t 0 (if Nat.leb i n then i else n + 1)).
Lemma tiny_pos : forall x, 0 < at_least_tiny x.
Proof. intros x. unfold at_least_tiny, tiny. pose proof (Rmax_r x (exp (- 99999))). pose proof (exp_pos (- 99999)). lra. Qed.
Lemma first_spec : forall i, t <> [] -> (1 <= i <= K)%nat ->
  exp (alig_val (calc_lanji M ns t, calc_lanjm1ip_anji M ns nsa t) (0, i - 1, 0)%nat) = clamped (fw i / sumf fw cts).
Proof.
  intros i NE Hi. unfold alig_val, calc_lanjm1ip_anji. cbn [snd]. rewrite slen_n, aslen_n. pose proof K_range as KR. destruct t as [|w u] eqn:E; [congruence|].
  assert (NL : (0 < length ns)%nat) by (rewrite ns_len; unfold n; lia).
  destruct (beta_spec M n ns NL (w :: u) 0 ltac:(cbn; lia)) as (b & E2 & B). cbn [skipn] in B. rewrite ns_len in *. 
  destruct (beta_cols M n ns (w :: u)) as [|be bes]; [discriminate|]. cbn [nth_error] in E2. assert (E3 : be = map b (seq 1 (2 * n))) by congruence. subst be. clear E2.
  cbn [Nat.eqb nth]. unfold first_col. rewrite nsa_len. 
  set (num := fun i0 : nat => if isNullAlig 0 n i0 then if (i0 =? n + 1)%nat then num_je1 M n nsa w (map b (seq 1 (2 * n))) i0 else num_je1 M n nsa w (map b (seq 1 (2 * n))) (n + 1) else num_je1 M n nsa w (map b (seq 1 (2 * n))) i0).
  rewrite map_map. rewrite nth_map_seq1' by exact Hi. cbn [nth].
  assert (J : forall k, (1 <= k <= K)%nat -> exp (num_je1 M n nsa w (map b (seq 1 (2 * n))) k) = at_least_tiny (state_joint tr em n (w :: u) 0 k)).
  { intros k Hk. unfold num_je1. rewrite nsa_nth by exact Hk. rewrite floor_lg_exp, nth_map_seq1 by lia. rewrite !exp_plus, B by (apply in_seq; lia).
    f_equal. rewrite <- E. symmetry. apply (state_joint0 w u k E). apply in_seq; lia. }
  assert (Nm : forall k, (1 <= k <= K)%nat -> exp (num k) = fw k).
  { intros k Hk. unfold num, fw. rewrite null0 by lia. rewrite E. destruct (Nat.leb_spec k n); cbn [negb]; [apply J; lia|]. assert (K = 2 * n)%nat by (clear - Hk H; unfold K, counted in *; destruct (p0 M); lia). destruct (Nat.eqb_spec k (n + 1)); [subst k|]; apply J; lia. }
  rewrite clamp_exp. f_equal. unfold Rminus. rewrite exp_plus, exp_Ropp, lsum_exp by (destruct K eqn:Z; [lia|discriminate]).
  unfold Rdiv. rewrite Nm by exact Hi. f_equal. f_equal. rewrite sumf_map. apply sumf_ext. intros k Hk. apply in_seq in Hk. apply Nm. lia.
Qed.
Definition hw j i' i := if in_dec Nat.eq_dec i (dests n i') then at_least_tiny (pair_joint tr em n t j i' i) else tiny.
Lemma next_spec : forall j i' i, (S j < length t)%nat -> (1 <= i' <= K)%nat -> (1 <= i <= K)%nat ->
  exp (alig_val (calc_lanji M ns t, calc_lanjm1ip_anji M ns nsa t) (S j, i - 1, i')%nat) = clamped (hw j i' i / sumf (fun k => sumf (fun k' => hw j k' k) cts) cts).
Proof.
  intros j i' i J I1 I2. unfold alig_val, calc_lanjm1ip_anji. cbn [snd]. rewrite slen_n, aslen_n. pose proof K_range as KR.
  assert (NL : (0 < length ns)%nat) by (rewrite ns_len; unfold n; lia).
  destruct (fwd_spec M n ns NL t j ltac:(lia)) as (g & E1 & A). destruct (beta_spec M n ns NL t (S j) J) as (b & E2 & B). rewrite ns_len in *.
  assert (X : exists w0 t' w, t = w0 :: t' /\ nth_error t' j = Some w /\ t = firstn (S j) t ++ w :: skipn (S (S j)) t).
  { destruct t as [|w0 t'] eqn:Et; [cbn in J; lia|]. cbn in J. destruct (nth_error t' j) as [w|] eqn:Ew; [|apply nth_error_None in Ew; lia].
    exists w0, t', w. split; [reflexivity|]. split; [exact Ew|]. cbn [firstn skipn app]. f_equal. apply nth_error_split in Ew as (l1 & l2 & -> & <-). clear. induction l1 as [|x l1 IH]; [reflexivity|]. cbn [app length firstn skipn]. f_equal. exact IH. }
  destruct X as (w0 & t' & w & Et & Ew & Sp).
  assert (MX : nth (S j) (match t with [] => [] | w :: t'0 => match beta_cols M n ns t with [] => [] | be :: bes' => first_col M n nsa w be :: next_cols M n nsa t'0 (fwd_cols M n ns None t) bes' end end) [] = next_col M n nsa w (map g (seq 1 (2 * n))) (map b (seq 1 (2 * n)))).
  { rewrite Et at 1. destruct (beta_cols M n ns t) as [|be bes]; [discriminate|]. cbn [nth]. cbn in E2. apply next_cols_nth; assumption. }
  etransitivity. { apply f_equal. exact (f_equal (fun m => nth (i' - 1) (nth (i - 1) m []) 0) MX). }
  unfold next_col. rewrite nsa_len.
  set (num := fun i0 ip : nat => if isValidAlig ip n i0 then num_jg1 M n nsa w (map g (seq 1 (2 * n))) (map b (seq 1 (2 * n))) ip i0 else SMALL_LG_NUM).
  change (exp (nth (i' - 1) (nth (i - 1) (map (map (fun d => clamp (d - lsum (concat (map (fun i0 => map (num i0) (seq 1 K)) (seq 1 K)))))) (map (fun i0 => map (num i0) (seq 1 K)) (seq 1 K))) []) 0) = clamped (hw j i' i / sumf (fun k => sumf (fun k' => hw j k' k) cts) cts)).
  rewrite map_map. rewrite nth_map_seq1' by exact I2. rewrite map_map. rewrite nth_map_seq1 by exact I1.
  assert (Nm : forall k' k, (1 <= k' <= K)%nat -> (1 <= k <= K)%nat -> exp (num k k') = hw j k' k).
  { intros k' k H1 H2. unfold num, hw. destruct (in_dec Nat.eq_dec k (dests n k')) as [D|D].
    - apply in_dests in D; [|lia|unfold n; lia]. apply valid_allowed in D; [|lia|lia]. rewrite D. unfold num_jg1. rewrite nsa_nth by exact H2. rewrite floor_lg_exp. f_equal. rewrite !nth_map_seq1 by lia. rewrite !exp_plus.
      unfold pair_joint, paths. fold sts. rewrite sumf_filter. rewrite B by (apply in_seq; lia).
      pose proof (joint_pair tr em sts (firstn (S j) t) (fun i => exp (g i)) w (skipn (S (S j)) t) k' k A) as Qj.
      replace (length (firstn (S j) t) - 1)%nat with j in Qj by (rewrite firstn_length; lia). replace (length (firstn (S j) t)) with (S j) in Qj by (rewrite firstn_length; lia). rewrite <- Sp in Qj.
      symmetry. apply Qj; [destruct t; [cbn in J; lia|discriminate]|apply seq_NoDup|apply in_seq; lia|apply in_seq; lia].
    - assert (V : isValidAlig k' n k = false). { destruct (isValidAlig k' n k) eqn:V; [|reflexivity]. exfalso. apply D. apply in_dests; [lia|unfold n; lia|]. apply valid_allowed; [lia|lia|exact V]. }
      rewrite V. reflexivity. }
  rewrite clamp_exp. f_equal. unfold Rminus. rewrite exp_plus, exp_Ropp, lsum_exp.
  - unfold Rdiv. rewrite Nm by assumption. f_equal. f_equal. rewrite sumf_concat, sumf_map. apply sumf_ext. intros k Hk. apply in_seq in Hk. rewrite sumf_map. apply sumf_ext. intros k' Hk'. apply in_seq in Hk'. apply Nm; lia.
  - destruct K eqn:Z; [lia|discriminate].
Qed.
Lemma state_spec : forall j i, (j < length t)%nat -> (1 <= i <= 2 * n)%nat ->
  exp (lex_val (calc_lanji M ns t, calc_lanjm1ip_anji M ns nsa t) (j, i - 1)%nat) = clamped (at_least_tiny (state_joint tr em n t j i) / sumf (fun i' => at_least_tiny (state_joint tr em n t j i')) sts).
Proof.
  intros j i J I. unfold lex_val. cbn [fst snd]. pose proof (lanji_spec M s t HN Hs j i J I) as E. erewrite nth_error_nth by exact E. rewrite clamp_exp. f_equal. rewrite exp_ln; [reflexivity|].
  apply Rdiv_lt_0_compat; [apply floored_pos|]. apply (sumf_pos _ _ i); [intros; left; apply floored_pos|apply in_seq; fold n; lia|apply floored_pos].
Qed.
Lemma clamped_low : forall x, exp (-9) <= clamped x.
Proof. intros. apply Rmax_l. Qed.
End L.
