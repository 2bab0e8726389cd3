From Coq Require Import List Arith Reals Lra Lia.
From Verif Require Import BleuSpec BleuModel BleuProofs BleuRealModel.
Import ListNotations.
Open Scope R_scope.
Definition ok_counts (c : counts) : Prop := (sysWords c <> 0)%nat /\ length (acc c) = 4%nat /\ forall p t, In (p, t) (acc c) -> (p <= t)%nat.
Lemma precision_range : forall p t, (p <= t)%nat -> 0 <= precision (p, t) <= 1.
Proof.
  intros p t H. unfold precision. cbn [fst snd]. destruct (Nat.eqb_spec t 0) as [E|E]; [lra|]. assert (0 < INR t) by (apply lt_0_INR; lia).
  assert (0 <= INR p) by apply pos_INR. assert (INR p <= INR t) by (now apply le_INR). split.
  - apply Rmult_le_pos; [lra|]. left. now apply Rinv_0_lt_compat.
  - apply Rmult_le_reg_r with (INR t); auto. unfold Rdiv. rewrite Rmult_assoc, Rinv_l by lra. lra.
Qed.
Lemma my_log_le : forall x, 0 <= x <= 1 -> my_log x <= 0.
Proof.
  intros x H. unfold my_log. destruct (Req_EM_T x 0); [lra|]. destruct (Req_dec x 1) as [->|]; [rewrite ln_1; lra|].
  rewrite <- ln_1. left. apply ln_increasing; lra.
Qed.
Lemma my_log_1 : my_log 1 = 0.
Proof. unfold my_log. destruct (Req_EM_T 1 0); [lra|]. apply ln_1. Qed.
Lemma my_log_0 : my_log 0 = -999999999.
Proof. unfold my_log. destruct (Req_EM_T 0 0); [reflexivity|congruence]. Qed.
Lemma log_mean4 : forall a b c d, log_mean [a; b; c; d] = (my_log (precision a) + my_log (precision b) + my_log (precision c) + my_log (precision d)) / 4.
Proof. intros. unfold log_mean, MAX_N. cbn [fold_left]. replace (INR 4) with 4 by (simpl; lra). field. Qed.
Lemma brevity_range : forall c, sysWords c <> 0%nat -> 0 < brevity c <= 1.
Proof.
  intros c H. unfold brevity. destruct (Nat.ltb_spec (sysWords c) (refWords c)) as [L|L]; [|lra]. split; [apply exp_pos|].
  apply Rle_trans with (exp 0); [left; apply exp_increasing|rewrite exp_0; lra]. assert (0 < INR (sysWords c)) by (apply lt_0_INR; lia). assert (INR (sysWords c) < INR (refWords c)) by (now apply lt_INR).
  assert (1 < INR (refWords c) / INR (sysWords c)); [|lra]. apply Rmult_lt_reg_r with (INR (sysWords c)); auto. unfold Rdiv. rewrite Rmult_assoc, Rinv_l by lra. lra.
Qed.
Lemma bleu_range : forall c, ok_counts c -> 0 < bleu c <= 1.
Proof.
  intros c (S & L & P). destruct (brevity_range c S) as (B1 & B2). unfold bleu. destruct (acc c) as [|a [|b [|d [|e [|]]]]]; try discriminate.
  rewrite log_mean4. assert (E : forall x, In x [a; b; d; e] -> my_log (precision x) <= 0).
  { intros [p t] I. apply my_log_le, precision_range, P, I. }
  pose proof (E a ltac:(simpl; auto)). pose proof (E b ltac:(simpl; auto)). pose proof (E d ltac:(simpl; auto)). pose proof (E e ltac:(simpl; auto)).
  remember ((my_log (precision a) + my_log (precision b) + my_log (precision d) + my_log (precision e)) / 4) as z. assert (Z : z <= 0) by lra.
  assert (0 < exp z <= 1). { split; [apply exp_pos|]. rewrite <- exp_0. destruct Z as [Z | ->]; [left; now apply exp_increasing|lra]. }
  split; [apply Rmult_lt_0_compat; lra|]. apply Rle_trans with (1 * 1); [|lra]. apply Rmult_le_compat; lra.
Qed.
Lemma bleu_zero_prec : forall c, ok_counts c -> (exists t, In (0%nat, t) (acc c)) -> bleu c <= exp (-999999999 / 4).
Proof.
  intros c (S & L & P) (t & I). destruct (brevity_range c S) as (B1 & B2). unfold bleu. destruct (acc c) as [|a [|b [|d [|e [|]]]]]; try discriminate.
  rewrite log_mean4. assert (E : forall x, In x [a; b; d; e] -> my_log (precision x) <= 0).
  { intros [p t0] J. apply my_log_le, precision_range, P, J. }
  pose proof (E a ltac:(simpl; auto)). pose proof (E b ltac:(simpl; auto)). pose proof (E d ltac:(simpl; auto)). pose proof (E e ltac:(simpl; auto)).
  assert (Z : my_log (precision (0%nat, t)) = -999999999).
  { replace (precision (0%nat, t)) with 0; [apply my_log_0|]. unfold precision. cbn [fst snd]. destruct (t =? 0)%nat; auto. simpl. unfold Rdiv. ring. }
  remember ((my_log (precision a) + my_log (precision b) + my_log (precision d) + my_log (precision e)) / 4) as z.
  assert (z <= -999999999 / 4). { simpl in I. destruct I as [I|[I|[I|[I|[]]]]]; subst; lra. }
  apply Rle_trans with (1 * exp z).
  - apply Rmult_le_compat_r; [left; apply exp_pos|lra].
  - rewrite Rmult_1_l. destruct H3 as [H3 | ->]; [left; now apply exp_increasing|lra].
Qed.
Lemma precision_full : forall t, t <> 0%nat -> precision (t, t) = 1.
Proof.
  intros t H. unfold precision. cbn [fst snd]. destruct (Nat.eqb_spec t 0); [contradiction|]. unfold Rdiv. apply Rinv_r. apply not_0_INR. auto.
Qed.
Section S.
Variable A : Type.
Variable eqd : forall x y : A, {x = y} + {x <> y}.
Lemma sum_pos : forall B (f : B -> nat) l x, In x l -> (f x <= sum (map f l))%nat.
Proof. induction l as [|y l IH]; intros x []; simpl; [subst; lia|]. specialize (IH x H). lia. Qed.
Lemma sum_le2 : forall B (f g : B -> nat) l, (forall x, f x <= g x)%nat -> (sum (map f l) <= sum (map g l))%nat.
Proof. induction l as [|y l IH]; intro H; simpl; auto. specialize (H y) as Hy. specialize (IH H). lia. Qed.
Lemma corpus_ok_counts : forall refs syss c, corpus eqd refs syss = Some c -> (sysWords c <> 0)%nat -> ok_counts c.
Proof.
  intros refs syss c E S. destruct (le_lt_dec (length refs) (length syss)) as [L|L]; [|rewrite corpus_short in E by auto; discriminate].
  destruct (corpus_spec A eqd refs syss L) as (c' & E' & _ & _ & N). assert (c' = c) by congruence. subst c'. cbv zeta in N.
  assert (LA : length (acc c) = 4%nat).
  { unfold corpus in E. rewrite corpus_loop_spec in E by reflexivity. destruct (length syss <? length refs)%nat; [discriminate|]. inversion E. reflexivity. }
  split; [exact S|]. split; [exact LA|]. intros p t I. apply In_nth_error in I. destruct I as (k & I).
  assert (K : (k < 4)%nat) by (rewrite <- LA; apply nth_error_Some; congruence).
  specialize (N (k + 1)%nat ltac:(lia)). replace (k + 1 - 1)%nat with k in N by lia. rewrite I in N. inversion N. apply sum_le2. intro x. apply common_le.
Qed.
Lemma bleu_perfect : forall refs s c, In s refs -> (4 <= length s)%nat -> corpus eqd refs refs = Some c -> bleu c = 1.
Proof.
  intros refs s c I L E. destruct (corpus_spec A eqd refs refs (le_n _)) as (c' & E' & RW & SW & N). assert (c' = c) by congruence. subst c'. cbv zeta in *.
  assert (CB : forall (f : list A * list A -> nat), sum (map f (combine refs refs)) = sum (map (fun r => f (r, r)) refs)).
  { intro f. clear. induction refs; simpl; auto. }
  assert (W : sysWords c = refWords c) by (rewrite RW, SW, CB; reflexivity).
  assert (P : forall n, (1 <= n <= 4)%nat -> exists t, t <> 0%nat /\ nth_error (acc c) (n - 1) = Some (t, t)).
  { intros n Hn. exists (sum (map (fun r => length (ngrams n r)) refs)). split.
    - pose proof (sum_pos _ (fun r : list A => length (ngrams n r)) refs s I) as X. cbv beta in X. rewrite ngrams_length in X. lia.
    - rewrite N by auto. rewrite !CB. do 2 f_equal. f_equal. apply map_ext. intro r. cbn [fst snd]. apply common_self. }
  unfold bleu, brevity. rewrite W, Nat.ltb_irrefl, Rmult_1_l. 
  assert (LA : length (acc c) = 4%nat).
  { unfold corpus in E. rewrite corpus_loop_spec in E by reflexivity. destruct (length refs <? length refs)%nat; [discriminate|]. inversion E. reflexivity. }
  destruct (P 1%nat ltac:(lia)) as (t1 & H1 & Q1). destruct (P 2%nat ltac:(lia)) as (t2 & H2 & Q2). destruct (P 3%nat ltac:(lia)) as (t3 & H3 & Q3). destruct (P 4%nat ltac:(lia)) as (t4 & H4 & Q4).
  destruct (acc c) as [|x1 [|x2 [|x3 [|x4 [|]]]]]; try discriminate. cbn in Q1, Q2, Q3, Q4. inversion Q1; inversion Q2; inversion Q3; inversion Q4; subst.
  rewrite log_mean4, !precision_full, my_log_1 by auto. replace ((0 + 0 + 0 + 0) / 4) with 0 by lra. apply exp_0.
Qed.
(** sentences of at most three words *)
Lemma ngrams_short : forall n (s : list A), (length s < n)%nat -> ngrams n s = [].
Proof. intros n s H. assert (X : length (ngrams n s) = 0%nat) by (rewrite ngrams_length; lia). now destruct (ngrams n s). Qed.
Lemma bleu_short : forall refs syss c, (length refs <= length syss)%nat -> Forall (fun s => (length s < 4)%nat) syss -> corpus eqd refs syss = Some c -> sysWords c <> 0%nat ->
  bleu c <= exp (-999999999 / 4).
Proof.
  intros refs syss c L F E S. apply bleu_zero_prec; [eapply corpus_ok_counts; eauto|]. destruct (corpus_spec A eqd refs syss L) as (c' & E' & _ & _ & N). assert (c' = c) by congruence. subst c'. cbv zeta in N.
  specialize (N 4%nat ltac:(lia)). exists (sum (map (fun e : list A * list A => length (ngrams 4 (snd e))) (combine refs syss))). apply nth_error_In with (n := (4 - 1)%nat). rewrite N. do 2 f_equal.
  assert (Z : forall l : list (list A * list A), (forall e, In e l -> In (snd e) syss) -> sum (map (fun e => common eqd (ngrams 4 (snd e)) (ngrams 4 (fst e))) l) = 0%nat).
  { induction l as [|e l IH]; intro H; simpl; auto. rewrite IH by (intros; apply H; simpl; auto). rewrite ngrams_short; [reflexivity|].
    rewrite Forall_forall in F. apply F, H. simpl; auto. }
  apply Z. intros [r s] I. apply in_combine_r in I. exact I.
Qed.
End S.
