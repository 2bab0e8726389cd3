From Coq Require Import Reals NArith Arith List Bool Lra Lia.
From Verif Require Import RSums MathModel MathProofs LogNum AligSpec AligModel AligProofs HmmSpec HmmModel HmmVitProofs HmmCacheProofs HmmFwdProofs HmmProofs.
Import ListNotations.
Open Scope R_scope.
Lemma combine_maps : forall {A B C} (f : A -> B) (g : A -> C) l, combine (map f l) (map g l) = map (fun x => (f x, g x)) l.
Proof. induction l; cbn; [reflexivity|]. now rewrite IHl. Qed.
Lemma nth_error_combine : forall {A B} (l : list A) (r : list B) k x y, nth_error l k = Some x -> nth_error r k = Some y -> nth_error (combine l r) k = Some (x, y).
Proof. induction l; intros [|b r] [|k] x y H1 H2; cbn in *; try discriminate; [congruence|eauto]. Qed.
Lemma sumf_ind_out : forall (f : nat -> R) l i, ~ In i l -> sumf (fun k => f k * (if (k =? i)%nat then 1 else 0)) l = 0.
Proof.
  induction l as [|x l IH]; intros i H; cbn; [lra|]. rewrite IH by (intros ?; apply H; right; auto). destruct (Nat.eqb_spec x i); [exfalso; apply H; left; auto|lra].
Qed.
Lemma sumf_ind : forall (f : nat -> R) l i, NoDup l -> In i l -> sumf (fun k => f k * (if (k =? i)%nat then 1 else 0)) l = f i.
Proof.
  induction l as [|x l IH]; intros i ND H; [destruct H|]. inversion ND; subst. cbn [sumf]. destruct H as [->|H].
  - rewrite Nat.eqb_refl, sumf_ind_out by auto. lra.
  - destruct (Nat.eqb_spec x i); [subst; tauto|]. rewrite IH by auto. lra.
Qed.
Definition floored (x : R) : R := Rmax x (exp SMALL_LG_NUM).
Lemma floored_pos : forall x, 0 < floored x.
Proof. intros. unfold floored. pose proof (Rmax_r x (exp SMALL_LG_NUM)). pose proof (exp_pos SMALL_LG_NUM). lra. Qed.
Lemma lanji_num_exp : forall a b, exp (lanji_num a b) = floored (exp a * exp b).
Proof.
  intros. unfold lanji_num, floored. rewrite <- exp_plus. destruct (Rlt_dec (a + b) SMALL_LG_NUM) as [L|L].
  - rewrite Rmax_right; [reflexivity|]. apply Rlt_le, exp_increasing; auto.
  - rewrite Rmax_left; [reflexivity|]. destruct (Rle_lt_or_eq_dec SMALL_LG_NUM (a + b) ltac:(lra)) as [G|G]; [apply Rlt_le, exp_increasing; auto|rewrite G; lra].
Qed.
Section L.
Variable M : hmm.
Variables (s t : list N).
Hypothesis HN : ~ In NULL_WORD s.
Hypothesis Hs : (1 <= length s)%nat.
Let n := length s.
Let ns := extendWithNullWord s.
Let tr p i := exp (logaProb M p n i).
Let em i w := exp (logpts M (nth (i - 1) ns NULL_WORD) w).
Lemma lanji_spec : forall j i, (j < length t)%nat -> (1 <= i <= 2 * n)%nat ->
  nth_error (nth j (calc_lanji M ns t) []) (i - 1)
  = Some (clamp (ln (floored (state_joint tr em n t j i) / sumf (fun i' => floored (state_joint tr em n t j i')) (seq 1 (2 * n))))).
Proof.
  intros j i J I. assert (LN : length ns = (2 * n)%nat) by (unfold ns; apply extend_len).
  assert (NE : (0 < length ns)%nat) by (unfold n in *; lia).
  assert (SL : getSrcLen ns = n) by (apply srcLen_extend; auto).
  unfold calc_lanji. rewrite SL.
  destruct (fwd_spec M n ns NE t j J) as (g & E1 & A). destruct (beta_spec M n ns NE t j J) as (b & E2 & B).
  rewrite LN in *.
  assert (JO : forall k, In k (seq 1 (2 * n)) -> exp (lanji_num (g k) (b k)) = floored (state_joint tr em n t j k)).
  { intros k K. rewrite lanji_num_exp, (B k K). f_equal. unfold state_joint, paths. rewrite sumf_filter.
    pose proof (joint_ab _ _ _ _ _ (skipn (S j) t) (fun x => if (x =? k)%nat then 1 else 0) A) as Q.
    rewrite firstn_skipn in Q. replace (length (firstn (S j) t) - 1)%nat with j in Q by (rewrite firstn_length; lia).
    symmetry. etransitivity; [exact (Q ltac:(destruct t; [cbn in J; lia|discriminate]))|].
    apply (sumf_ind (fun i => exp (g i) * beta_of _ _ (seq 1 (2 * n)) (skipn (S j) t) i) (seq 1 (2 * n)) k (seq_NoDup _ _) K). }
  erewrite (nth_error_nth (map _ (combine _ _)) j []); [|rewrite nth_error_map, (nth_error_combine _ _ _ _ _ E1 E2); reflexivity].
  cbn [fst snd]. unfold lanji_col. rewrite combine_maps, map_map. cbn [fst snd].
  set (h := fun k => lanji_num (g k) (b k)) in *.
  assert (EQ : exists v r, map h (seq 1 (2 * n)) = v :: r). { destruct (2 * n)%nat eqn:Z; [unfold n in *; lia|]. cbn. eauto. }
  destruct EQ as (v & r & EQ). rewrite EQ. rewrite nth_error_map, <- EQ, nth_error_map.
  rewrite (nth_error_nth' _ 0%nat) by (rewrite seq_length; lia). rewrite seq_nth by lia. replace (1 + (i - 1))%nat with i by lia. cbn [option_map].
  do 2 f_equal. assert (II : In i (seq 1 (2 * n))) by (apply in_seq; lia).
  pose proof (floored_pos (state_joint tr em n t j i)). assert (PS : 0 < sumf (fun i' => floored (state_joint tr em n t j i')) (seq 1 (2 * n))).
  { apply (sumf_pos _ _ i); auto. intros x _. apply Rlt_le, floored_pos. }
  unfold Rdiv. rewrite ln_mult, ln_Rinv; auto; [|apply Rinv_0_lt_compat; auto]. rewrite <- (JO i II), ln_exp. fold (h i).
  apply Rplus_eq_compat_l. f_equal. rewrite <- (ln_exp (fold_left lns_sumlog r v)). f_equal. rewrite fold_sumlog.
  transitivity (sumf exp (map h (seq 1 (2 * n)))); [rewrite EQ; reflexivity|]. rewrite sumf_map. apply sumf_ext. exact JO.
Qed.
Lemma total_joint : forall j, (j < length t)%nat -> sumf (fun i => state_joint tr em n t j i) (seq 1 (2 * n)) = total_prob tr em n t.
Proof.
  intros j J. unfold state_joint, total_prob.
  transitivity (sumf (fun i => sumf (fun a => path_prob tr em 0 a t * (if (nth j a 0 =? i)%nat then 1 else 0)) (paths n (length t))) (seq 1 (2 * n))).
  { apply sumf_ext. intros. apply sumf_filter. }
  rewrite sumf_swap. apply sumf_ext. intros a Ha. apply in_paths in Ha as [L F].
  assert (K : In (nth j a 0%nat) (seq 1 (2 * n))). { rewrite Forall_forall in F. apply F, nth_In. lia. }
  etransitivity; [|exact (sumf_ind (fun _ => path_prob tr em 0 a t) _ _ (seq_NoDup _ _) K)]. apply sumf_ext. intros x _. rewrite Nat.eqb_sym. reflexivity.
Qed.
End L.
(** ---- the transition and lexical distributions *)
Lemma exp_minus : forall a b, exp (a - b) = exp a / exp b.
Proof. intros. unfold Rminus. rewrite exp_plus, exp_Ropp. reflexivity. Qed.
Lemma in_dests : forall n prev i, (prev <= 2 * n)%nat -> (1 <= n)%nat -> (In i (dests n prev) <-> allowed n prev i).
Proof.
  intros n prev i P N. unfold dests, allowed, origin. rewrite in_app_iff, in_seq. destruct (Nat.eqb_spec prev 0) as [->|Z].
  - rewrite in_seq. lia.
  - destruct (Nat.ltb_spec n prev); cbn [In]; lia.
Qed.
Lemma dests_len : forall n prev, length (dests n prev) = fan prev n.
Proof. intros. unfold dests, fan. rewrite app_length, seq_length. destruct (prev =? 0)%nat; [rewrite seq_length|cbn]; lia. Qed.
Lemma dests_nodup : forall n prev, (prev <= 2 * n)%nat -> NoDup (dests n prev).
Proof.
  intros n prev P. unfold dests, origin. destruct (Nat.eqb_spec prev 0) as [->|Z].
  - rewrite (Nat.add_1_r n). change (S n) with (1 + n)%nat. rewrite <- seq_app. apply seq_NoDup.
  - destruct (Nat.ltb_spec n prev).
    + replace (n + (prev - n))%nat with prev by lia. rewrite <- (rev_involutive (seq 1 n ++ [prev])), rev_app_distr. apply NoDup_rev. cbn. constructor; [rewrite <- in_rev, in_seq; lia|apply NoDup_rev, seq_NoDup].
    + rewrite <- (rev_involutive (seq 1 n ++ [(n + prev)%nat])), rev_app_distr. apply NoDup_rev. cbn. constructor; [rewrite <- in_rev, in_seq; lia|apply NoDup_rev, seq_NoDup].
Qed.
Lemma valid_allowed : forall n prev i, (prev <= 2 * n)%nat -> (1 <= i <= 2 * n)%nat -> (isValidAlig prev n i = true <-> allowed n prev i).
Proof.
  intros n prev i P I. unfold isValidAlig, allowed, origin. destruct (Nat.leb_spec i n); [intuition lia|]. destruct (Nat.eqb_spec prev 0); [intuition lia|].
  destruct (Nat.ltb_spec n prev); match goal with |- context [(?a =? ?b)%nat] => destruct (Nat.eqb_spec a b) end; intuition (try congruence; try lia).
Qed.
Section D.
Variable M : hmm.
Hypothesis SM : smoothing_ok M.
Let raw := raw_trans (aligNumer M) (aligDenom M) (exp SMALL_LG_NUM) (p0 M).
Lemma raw_ok : forall n prev i, (1 <= n)%nat -> (prev <= 2 * n)%nat -> (1 <= i <= 2 * n)%nat -> allowed n prev i -> exp (unsmoothed_logaProb M prev n i) = raw n prev i.
Proof.
  intros n prev i N P I A. unfold unsmoothed_logaProb. rewrite (proj2 (valid_allowed n prev i P I) A).
  destruct SM as (_ & _ & _ & Q). unfold raw, raw_trans.
  assert (NL : isNullAlig prev n i = negb (i <=? n)%nat).
  { apply (valid_allowed n prev i P I) in A. unfold isValidAlig in A. unfold isNullAlig. destruct (i <=? n)%nat; [reflexivity|]. destruct (prev =? 0)%nat; [reflexivity|]. destruct (_ =? _)%nat; [reflexivity|discriminate]. }
  rewrite NL. unfold getModifiedIp. destruct (Nat.leb_spec i n) as [Li|Li]; cbn [negb andb].
  - change (if (n <? prev)%nat then (prev - n)%nat else prev) with (origin n prev).
    unfold tableRatio, cell. destruct (p0 M) as [p|].
    + destruct (aligNumer M (origin n prev) n i), (aligDenom M (origin n prev) n); try reflexivity. rewrite exp_plus, exp_minus, exp_ln by lra. lra.
    + destruct (aligNumer M (origin n prev) n i), (aligDenom M (origin n prev) n); try reflexivity. apply exp_minus.
  - destruct (p0 M) as [p|].
    + assert (0 < INR n) by (apply lt_0_INR; lia). destruct (Nat.eqb_spec prev 0); [|apply exp_ln; lra]. rewrite exp_minus, !exp_ln by lra. reflexivity.
    + unfold nullAligSpecialPar, cell. destruct (Nat.eqb_spec prev 0) as [->|Z].
      * unfold origin. cbn [Nat.ltb Nat.leb]. change (n <? 0)%nat with false. cbv iota. unfold tableRatio.
        destruct (aligNumer M 0 n (n + 1)), (aligDenom M 0 n); try reflexivity. apply exp_minus.
      * change (if (n <? prev)%nat then (prev - n)%nat else prev) with (origin n prev). rewrite (Nat.add_comm (origin n prev) n). unfold tableRatio.
        destruct (aligNumer M (origin n prev) n (n + origin n prev)), (aligDenom M (origin n prev) n); try reflexivity. apply exp_minus.
Qed.
Lemma trans_value : forall n prev i, (1 <= n)%nat -> (prev <= 2 * n)%nat -> (1 <= i <= 2 * n)%nat ->
  (allowed n prev i -> exp (logaProb M prev n i) = interpolated (asf M) (raw n prev i) (length (dests n prev))) /\
  (~ allowed n prev i -> logaProb M prev n i = SMALL_LG_NUM).
Proof.
  intros n prev i N P I. split; intros A.
  - rewrite logaProb_exp; auto; [|apply valid_allowed; auto]. rewrite dests_len, raw_ok; auto.
  - unfold logaProb, unsmoothed_logaProb. destruct (isValidAlig prev n i) eqn:V; [apply (valid_allowed n prev i P I) in V; tauto|]. reflexivity.
Qed.
Lemma interp_sum : forall {A} lam (f : A -> R) l, l <> [] -> sumf (fun i => interpolated lam (f i) (length l)) l = (1 - lam) * sumf f l + lam.
Proof.
  intros A lam f l H. unfold interpolated. rewrite sumf_plus, sumf_scal, sumf_const. f_equal. field. apply not_0_INR. destruct l; [congruence|discriminate].
Qed.
Lemma dests_in : forall n prev i, (1 <= n)%nat -> (prev <= 2 * n)%nat -> In i (dests n prev) -> (1 <= i <= 2 * n)%nat /\ allowed n prev i.
Proof. intros n prev i N P H. apply in_dests in H; auto. split; [|auto]. unfold allowed in H. lia. Qed.
Lemma trans_sum : forall n prev, (1 <= n)%nat -> (prev <= 2 * n)%nat ->
  sumf (fun i => exp (logaProb M prev n i)) (dests n prev) = (1 - asf M) * sumf (raw n prev) (dests n prev) + asf M.
Proof.
  intros n prev N P. rewrite (sumf_ext _ (fun i => interpolated (asf M) (raw n prev i) (length (dests n prev)))).
  - apply interp_sum. unfold dests. destruct n; [lia|discriminate].
  - intros i H. apply dests_in in H as [I A]; auto. apply trans_value; auto.
Qed.
End D.
