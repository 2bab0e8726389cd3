From Coq Require Import Reals NArith Arith List Bool Lra Lia.
From Verif Require Import RSums MathModel MathProofs LogNum Ibm1Spec HmmSpec HmmModel HmmVitProofs HmmCacheProofs HmmFwdProofs HmmProofs HmmPostProofs Ibm2Model HmmTrainModel HmmTrainSpec HmmTransProofs.
Import ListNotations.
Open Scope R_scope.
Definition P_of (M : hmm) : params := {| lcount := lexNumer M; ltotal := lexDenom M; tcount := aligNumer M; ttotal := aligDenom M |}.
Lemma path_cong : forall {T} (tr tr' : nat -> nat -> R) (em em' : nat -> T -> R) (ok : nat -> Prop),
  (forall p i, (p = 0%nat \/ ok p) -> ok i -> tr p i = tr' p i) -> (forall i w, ok i -> em i w = em' i w) ->
  forall a t p, (p = 0%nat \/ ok p) -> Forall ok a -> path_prob tr em p a t = path_prob tr' em' p a t.
Proof.
  intros T tr tr' em em' ok H1 H2. induction a as [|i a IH]; intros [|w t] p Hp F; cbn [path_prob]; try reflexivity. inversion F; subst. rewrite H1, H2, IH; auto.
Qed.
Section L.
Variable M : hmm.
Hypothesis SM : smoothing_ok M.
Variable p : pair.
Hypothesis HN : ~ In NULL_WORD (src p).
Hypothesis Hs : (1 <= length (src p))%nat.
Let n := length (src p).
Let ns := extendWithNullWord (src p).
Let tr q i := exp (logaProb M q n i).
Let em i w := exp (logpts M (nth (i - 1) ns NULL_WORD) w).
Let tr' := sm_trans (asf M) (p0 M) (P_of M) n.
Let em' := sm_emit (HmmModel.vocab M) (lsf M) (P_of M) (src p).
Lemma tr_ok : forall q i, (q = 0%nat \/ In q (seq 1 (2 * n))) -> In i (seq 1 (2 * n)) -> tr q i = tr' q i.
Proof.
  intros q i Hq Hi. apply in_seq in Hi. assert (Hq' : (q <= 2 * n)%nat) by (destruct Hq as [->|Hq]; [lia|apply in_seq in Hq; lia]).
  destruct (trans_value M SM n q i ltac:(unfold n; lia) Hq' ltac:(lia)) as [H1 H2]. unfold tr, tr', sm_trans. destruct (in_dec Nat.eq_dec i (dests n q)) as [D|D].
  - apply H1. apply in_dests in D; [exact D|lia|unfold n; lia].
  - rewrite H2; [reflexivity|]. intros A. apply D, in_dests; [lia|unfold n; lia|exact A].
Qed.
Lemma word_ok : forall i, In i (seq 1 (2 * n)) -> nth (i - 1) ns NULL_WORD = state_word (src p) i.
Proof.
  intros i Hi. apply in_seq in Hi. unfold ns, extendWithNullWord, state_word, NULL_WORD. destruct (Nat.leb_spec i (length (src p))).
  - rewrite app_nth1 by lia. apply nth_indep. lia.
  - rewrite app_nth2 by lia. apply nth_repeat.
Qed.
Lemma em_ok : forall i w, In i (seq 1 (2 * n)) -> em i w = em' i w.
Proof.
  intros i w Hi. unfold em, em', sm_emit. rewrite (word_ok i Hi), (logpts_exp M SM). f_equal. unfold unsmoothed_logpts, P_of, tiny. cbn [lcount ltotal].
  destruct (lexNumer M (state_word (src p) i) w); [|reflexivity]. destruct (lexDenom M (state_word (src p) i)); [apply exp_minus|reflexivity].
Qed.
Lemma joint_cong : forall (t : list N) f, sumf (fun a => path_prob tr em 0 a t) (filter f (paths n (length t))) = sumf (fun a => path_prob tr' em' 0 a t) (filter f (paths n (length t))).
Proof.
  intros t f. apply sumf_ext. intros a Ha. apply filter_In in Ha as [Ha _]. apply in_paths in Ha as [_ F]. 
  apply (path_cong tr tr' em em' (fun i => In i (seq 1 (2 * n))) tr_ok em_ok); [left; reflexivity|exact F].
Qed.
Let X := expectations (HmmModel.vocab M) (lsf M) (asf M) (p0 M) (P_of M) p.
Lemma est_state : forall j i, (j < length (trg p))%nat -> (1 <= i <= 2 * n)%nat -> exp (lex_val (hstep_e M p) (j, i - 1)%nat) = state_ex X j i.
Proof.
  intros j i J I. unfold hstep_e. rewrite (state_spec M (src p) (trg p) HN Hs j i J I). unfold X, expectations. cbn [state_ex].
  f_equal. f_equal; [|apply sumf_ext; intros k _]; f_equal; apply joint_cong.
Qed.
Lemma est_first : forall i, trg p <> [] -> (1 <= i <= counted (p0 M) n)%nat -> exp (alig_val (hstep_e M p) (0, i - 1, 0)%nat) = first_ex X i.
Proof.
  intros i NE I. unfold hstep_e. rewrite (first_spec M (src p) (trg p) HN Hs i NE I). unfold X, expectations. cbn [first_ex].
  f_equal. f_equal; [|apply sumf_ext; intros k _]; unfold fw; f_equal; apply joint_cong.
Qed.
Lemma est_trans : forall j i' i, (S j < length (trg p))%nat -> (1 <= i' <= counted (p0 M) n)%nat -> (1 <= i <= counted (p0 M) n)%nat -> exp (alig_val (hstep_e M p) (S j, i - 1, i')%nat) = trans_ex X j i' i.
Proof.
  intros j i' i J I1 I2. unfold hstep_e. rewrite (next_spec M (src p) (trg p) HN Hs j i' i J I1 I2). unfold X, expectations. cbn [trans_ex].
  f_equal. unfold hw. fold n. f_equal; [|apply sumf_ext; intros k _; apply sumf_ext; intros k' _]; destruct (in_dec _ _ _); try reflexivity; f_equal; apply joint_cong.
Qed.
End L.
