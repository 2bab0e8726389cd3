(** C121-C123: translation metrics. *)
From Coq Require Import Ascii String Arith ZArith QArith List Bool Lia Lqa Permutation Sorted.
From Verif Require Import TextSpec TextModel TextProofs PropertiesText VocabSpec EditDistSpec BleuSpec BleuModel BleuProofs EvalSpec EvalModel EvalProofs EvalGtm EvalChrf.
Import ListNotations.
Local Open Scope nat_scope.
Lemma tok_ok : forall s, stringToStringVector s = Some (toks s).
Proof. exact C22_tokenize_is_words. Qed.
(** C121: word error rate of a sentence: one minus the least number of edits per reference word *)
Theorem C121_sentence : forall cand ref, exists x b d, wer_sent cand ref = Some x /\ wer_background cand ref = Some b /\ edits (toks cand) (toks ref) d /\
  (toks ref = [] -> (x == 0)%Q) /\ (toks ref <> [] -> (x == 1 - nq d / nq (length (toks ref)))%Q /\ (x <= 1)%Q /\ ((x == 1)%Q <-> toks cand = toks ref)) /\
  (b == x * nq (length (toks ref)))%Q.
Proof.
  intros cand ref. unfold wer_sent, wer_background. rewrite !tok_ok. set (d := ed (toks cand) (toks ref)). pose proof (ed_edits (toks cand) (toks ref)) as ED. fold d in ED. eexists. eexists. exists d. split; [reflexivity|]. split; [reflexivity|]. split; [exact ED|].
  destruct (Nat.eqb_spec (length (toks ref)) 0) as [E|N].
  - split; [reflexivity|]. split; [intros H; apply length_zero_iff_nil in E; contradiction|]. ring.
  - split; [intros H; rewrite H in N; contradiction|]. assert (P : 0 < length (toks ref)) by lia. pose proof (nq_pos _ P) as QP. pose proof (nq_nonneg d) as QD. split; [|reflexivity]. intros _. split; [reflexivity|].
    assert (X : (0 <= nq d / nq (length (toks ref)))%Q) by (apply Qle_shift_div_l; lra). split; [lra|]. rewrite <- (edits_zero _ _ _ ED). split.
    + intros H. assert (Y : (nq d / nq (length (toks ref)) == 0)%Q) by lra. apply nq_eq. assert (Z1 : (nq d == nq d / nq (length (toks ref)) * nq (length (toks ref)))%Q) by (field; lra). rewrite Z1, Y. unfold nq at 2. cbn. ring.
    + intros ->. unfold nq at 1. cbn [Z.of_nat]. change (inject_Z 0) with 0%Q. field. lra.
Qed.
Print Assumptions C121_sentence.
(** over a corpus: edits and reference words are pooled *)
Definition total (l : list nat) : nat := fold_right plus 0 l.
Theorem C121_corpus : forall cands refs, (length refs < length cands -> wer_corpus cands refs = None) /\
  (length cands <= length refs -> exists x ds, wer_corpus cands refs = Some x /\
     Forall2 (fun p d => edits (toks (fst p)) (toks (snd p)) d) (combine cands refs) ds /\
     let n := total (map (fun p => length (toks (snd p))) (combine cands refs)) in
     (n = 0 -> (x == 0)%Q) /\ (0 < n -> (x == 1 - nq (total ds) / nq n)%Q)).
Proof.
  assert (C : forall cands refs e n, (length refs < length cands -> wer_counts cands refs e n = None) /\
     (length cands <= length refs -> exists ds, wer_counts cands refs e n = Some (e + total ds, n + total (map (fun p => length (toks (snd p))) (combine cands refs))) /\
        Forall2 (fun p d => edits (toks (fst p)) (toks (snd p)) d) (combine cands refs) ds)).
  { induction cands as [|c cands IH]; intros refs e n; [split; [cbn; lia|]; intros _; exists []; cbn [wer_counts combine map total fold_right]; split; [now rewrite !Nat.add_0_r|constructor]|].
    destruct refs as [|r refs]; cbn [length wer_counts]; [split; [reflexivity|lia]|]. rewrite !tok_ok. destruct (IH refs (e + ed (toks c) (toks r)) (n + length (toks r))) as [I1 I2]. split; [intros H; apply I1; lia|].
    intros H. destruct I2 as (ds & E & F); [lia|]. exists (ed (toks c) (toks r) :: ds). split; [rewrite E; cbn [combine map total fold_right fst snd]; f_equal; f_equal; unfold total; lia|]. cbn [combine]. constructor; [apply ed_edits|exact F]. }
  intros cands refs. unfold wer_corpus. destruct (C cands refs 0 0) as [C1 C2]. split; [intros H; now rewrite (C1 H)|]. intros H. destruct (C2 H) as (ds & E & F). rewrite E. eexists. exists ds. split; [reflexivity|]. split; [exact F|]. cbv zeta. cbn [Nat.add]. destruct (Nat.eqb_spec (total (map (fun p => length (toks (snd p))) (combine cands refs))) 0) as [Z1|Z1]; split; intros X; try lia; reflexivity.
Qed.
Print Assumptions C121_corpus.
(** Refuted: identical sentences always score one *)
Theorem C121_identical_refuted : exists x, wer_sent [] [] = Some x /\ (x == 0)%Q.
Proof. eexists. split; [vm_compute; reflexivity|reflexivity]. Qed.
Print Assumptions C121_identical_refuted.
(** C122: the general text matcher: whatever order std::sort gives to equal sizes, the matches are the words in common *)
Theorem C122_matches : forall cand ref, (exists st, gtm_stats cand ref st) /\ forall st, gtm_stats cand ref st -> st = (shared cand ref, length cand, length ref).
Proof.
  intros cand ref. split; [|exact (gtm_matches cand ref)].
  assert (S1 : forall l, exists l', Permutation l l' /\ StronglySorted (fun a b => g_sz b <= g_sz a) l').
  { induction l as [|x l (l' & P & SO)]; [exists []; split; constructor|].
    assert (INS : exists l2, Permutation (x :: l') l2 /\ StronglySorted (fun a b => g_sz b <= g_sz a) l2).
    { clear P. induction l' as [|y l' IH]; [exists [x]; split; [apply Permutation_refl|repeat constructor]|]. apply StronglySorted_inv in SO as [SO FA]. destruct (Nat.le_gt_cases (g_sz y) (g_sz x)) as [L|L].
      - exists (x :: y :: l'). split; [apply Permutation_refl|]. constructor; [now constructor|]. constructor; [exact L|]. eapply Forall_impl; [|exact FA]. cbn. intros; lia.
      - destruct (IH SO) as (l2 & P2 & SO2). exists (y :: l2). split; [eapply Permutation_trans; [apply perm_swap|now constructor]|]. constructor; [exact SO2|]. eapply Permutation_Forall; [exact P2|]. constructor; [lia|exact FA]. }
    destruct INS as (l2 & P2 & SO2). exists l2. split; [eapply Permutation_trans; [now constructor; exact P|exact P2]|exact SO2]. }
  destruct (S1 (gtm_rows 0 cand ref [])) as (ngs & P & SO). eexists. exists ngs. split; [split; [exact P|exact SO]|reflexivity].
Qed.
Print Assumptions C122_matches.
Lemma shared_le : forall a b, shared a b <= length a /\ shared a b <= length b.
Proof. intros a b. split; [apply common_le|]. unfold shared. rewrite (common_sym ascii ascii_dec). apply common_le. Qed.
Lemma shared_perm : forall a b, shared a b = length a -> length a = length b -> Permutation a b.
Proof.
  intros a b H L. apply (Permutation_count_occ (geqd ascii_dec)). intros w. apply Nat.le_antisymm; [apply (common_full a b H)|]. apply (common_full b a). unfold shared in H. rewrite (common_sym ascii ascii_dec), H. exact L.
Qed.
Lemma perm_shared : forall a a' b, Permutation a a' -> shared a b = shared a' b.
Proof.
  intros a a' b P. unfold shared. rewrite (common_sym ascii ascii_dec a), (common_sym ascii ascii_dec a'). unfold common. apply (sum_ext ascii). intros w _. now rewrite (occ_perm w a a' P).
Qed.
Lemma score_ok : forall m c r, m <= c -> m <= r -> (m = 0 -> gtm_score (m, c, r) = None) /\ (0 < m -> exists q, gtm_score (m, c, r) = Some q /\ (q == 2 * nq m / (nq c + nq r))%Q /\ (0 < q)%Q /\ (q <= 1)%Q /\ ((q == 1)%Q <-> m = c /\ m = r)).
Proof.
  intros m c r MC MR. unfold gtm_score. split; [intros ->; now rewrite orb_true_r|]. intros M. destruct (Nat.eqb_spec c 0); [lia|]. destruct (Nat.eqb_spec r 0); [lia|]. destruct (Nat.eqb_spec m 0); [lia|]. cbn [orb]. cbv zeta.
  pose proof (nq_pos m M) as QM. pose proof (nq_pos c ltac:(lia)) as QC. pose proof (nq_pos r ltac:(lia)) as QR. pose proof (nq_le _ _ MC) as L1. pose proof (nq_le _ _ MR) as L2. eexists. split; [reflexivity|].
  assert (V : ((1 + 1 * 1) * (nq m / nq c) * (nq m / nq r) / (1 * 1 * (nq m / nq c) + nq m / nq r) == 2 * nq m / (nq c + nq r))%Q).
  { assert (S1 : (0 < nq m / nq c)%Q) by (apply Qlt_shift_div_l; lra). assert (S2 : (0 < nq m / nq r)%Q) by (apply Qlt_shift_div_l; lra). field. repeat split; try lra. assert (H : (0 < nq m * nq r + nq m * nq c)%Q) by nra. lra. }
  split; [exact V|]. rewrite V. assert (E : (2 * nq m / (nq c + nq r) * (nq c + nq r) == 2 * nq m)%Q) by (field; lra). split; [apply Qlt_shift_div_l; lra|]. split; [apply Qle_shift_div_r; lra|]. split.
  - intros H. rewrite H in E. split; apply nq_eq; lra.
  - intros [-> ->]. field. lra.
Qed.
(** the score of a sentence: twice the common words over the words of both; not a number when nothing is in common; one exactly for the same words in any order *)
Theorem C122_sentence : forall cand ref, let c := toks cand in let r := toks ref in let m := shared c r in
  (exists x, gtm_sent cand ref x) /\ forall x, gtm_sent cand ref x ->
    (m = 0 -> x = None) /\
    (0 < m -> exists q, x = Some q /\ (q == 2 * nq m / (nq (length c) + nq (length r)))%Q /\ (0 < q)%Q /\ (q <= 1)%Q /\ ((q == 1)%Q <-> Permutation c r)).
Proof.
  intros cand ref. cbv zeta. destruct (C122_matches (toks cand) (toks ref)) as [[st ST] U]. split.
  - exists (gtm_score st), (toks cand), (toks ref), st. repeat split; try apply tok_ok. exact ST.
  - intros x (c' & r' & st' & H1 & H2 & H3 & ->). rewrite tok_ok in H1, H2. injection H1 as <-. injection H2 as <-. rewrite (U _ H3). destruct (shared_le (toks cand) (toks ref)) as [L1 L2]. destruct (score_ok _ _ _ L1 L2) as [S1 S2]. split; [exact S1|].
    intros M. destruct (S2 M) as (q & Q1 & Q2 & Q3 & Q4 & Q5). exists q. repeat (split; [assumption|]). rewrite Q5. split.
    + intros [A B]. apply shared_perm; lia.
    + intros P. pose proof (Permutation_length P) as PL. assert (E : shared (toks cand) (toks ref) = length (toks ref)) by (rewrite (perm_shared _ _ _ P); apply common_self). split; lia.
Qed.
Print Assumptions C122_sentence.
(** word order plays no part *)
Theorem C122_order_irrelevant : forall cand cand' ref x x', Permutation (toks cand) (toks cand') -> gtm_sent cand ref x -> gtm_sent cand' ref x' -> x = x'.
Proof.
  intros cand cand' ref x x' P (c1 & r1 & s1 & A1 & A2 & A3 & ->) (c2 & r2 & s2 & B1 & B2 & B3 & ->). rewrite tok_ok in A1, A2, B1, B2. injection A1 as <-. injection A2 as <-. injection B1 as <-. injection B2 as <-. apply gtm_matches in A3, B3. subst s1 s2. rewrite (perm_shared _ _ _ P), (Permutation_length P). reflexivity.
Qed.
Print Assumptions C122_order_irrelevant.
(** over a corpus the three counts are summed *)
Theorem C122_corpus : forall cands refs, let ps := combine cands refs in
  let m := total (map (fun p => shared (toks (fst p)) (toks (snd p))) ps) in let c := total (map (fun p => length (toks (fst p))) ps) in let r := total (map (fun p => length (toks (snd p))) ps) in
  length cands <= length refs -> (exists x, gtm_corpus cands refs x) /\ forall x, gtm_corpus cands refs x ->
    (m = 0 -> x = None) /\ (0 < m -> exists q, x = Some q /\ (q == 2 * nq m / (nq c + nq r))%Q /\ (0 < q)%Q /\ (q <= 1)%Q).
Proof.
  intros cands refs. cbv zeta. intros L.
  assert (EX : exists st, gtm_corpus_stats cands refs st).
  { revert refs L. induction cands as [|c cands IH]; intros refs L; [eexists; constructor|]. destruct refs as [|r refs]; cbn [length] in L; [lia|]. destruct (IH refs ltac:(lia)) as [[[m2 c2] r2] G]. destruct (C122_matches (toks c) (toks r)) as [[[[m1 c1] r1] G1] _]. eexists. econstructor; [apply tok_ok|apply tok_ok|exact G1|exact G]. }
  assert (UN : forall st, gtm_corpus_stats cands refs st -> st = (total (map (fun p => shared (toks (fst p)) (toks (snd p))) (combine cands refs)), total (map (fun p => length (toks (fst p))) (combine cands refs)), total (map (fun p => length (toks (snd p))) (combine cands refs)))).
  { intros st G. clear EX L. induction G as [refs|c r cs rs c' r' m cl rl m2 cl2 rl2 T1 T2 G G2 IH]; [reflexivity|]. rewrite tok_ok in T1, T2. injection T1 as <-. injection T2 as <-. apply gtm_matches in G. injection G as -> -> ->. injection IH as -> -> ->. reflexivity. }
  split; [destruct EX as [st G]; exists (gtm_score st), st; now split|]. intros x (st & G & ->). rewrite (UN st G). 
  assert (LE : forall ps : list (str * str), total (map (fun p => shared (toks (fst p)) (toks (snd p))) ps) <= total (map (fun p => length (toks (fst p))) ps) /\ total (map (fun p => shared (toks (fst p)) (toks (snd p))) ps) <= total (map (fun p => length (toks (snd p))) ps)).
  { induction ps as [|p ps [I1 I2]]; [cbn; lia|]. cbn [map total fold_right]. destruct (shared_le (toks (fst p)) (toks (snd p))) as [J1 J2]. unfold total in *. lia. }
  destruct (LE (combine cands refs)) as [L1 L2]. destruct (score_ok _ _ _ L1 L2) as [S1 S2]. split; [exact S1|]. intros M. destruct (S2 M) as (q & Q1 & Q2 & Q3 & Q4 & _). exists q. auto.
Qed.
Print Assumptions C122_corpus.
(** Refuted: a translation without a common word scores zero *)
Theorem C122_nothing_common_refuted : forall cand ref x, shared (toks cand) (toks ref) = 0 -> gtm_sent cand ref x -> x = None.
Proof. intros cand ref x H G. now apply (C122_sentence cand ref). Qed.
Print Assumptions C122_nothing_common_refuted.
(** C123: chrF: the stated formula *)
Theorem C123_value : forall ref sys, exists x, calculate_chrf ref sys = Some x /\
  let s := joined sys in let r := joined ref in
  (s = [] -> r = [] -> (x == 1)%Q) /\ (s = [] -> r <> [] -> (x == 0)%Q) /\ (s <> [] -> r = [] -> (x == 0)%Q) /\
  (s <> [] -> r <> [] -> let m := Nat.min 4 (length r) in let p := mean_share s r m (Nat.min 4 (length s)) in let q := mean_share r s m m in
     ((p == 0)%Q \/ (q == 0)%Q -> (x == 0)%Q) /\ (~ (p == 0)%Q -> ~ (q == 0)%Q -> (x == (1 + 3 * 3) * (p * q / (3 * 3 * p + q)))%Q)).
Proof. exact chrf_value. Qed.
Print Assumptions C123_value.
(** between 0 and 1; 1 exactly when all n-grams agree, 0 exactly when no character is shared *)
Theorem C123_range : forall ref sys, exists x, calculate_chrf ref sys = Some x /\ (0 <= x)%Q /\ (x <= 1)%Q /\
  ((x == 1)%Q <-> same_grams (joined sys) (joined ref)) /\
  ((x == 0)%Q <-> (joined sys <> [] \/ joined ref <> []) /\ forall c, ~ (In c (joined sys) /\ In c (joined ref))).
Proof. exact chrf_props. Qed.
Print Assumptions C123_range.
(** over a corpus: the mean *)
Theorem C123_corpus : forall cands refs, cands <> [] -> length cands <= length refs -> exists xs x, chrf_corpus cands refs = Some (Some x) /\
  Forall2 (fun p y => calculate_chrf (snd p) (fst p) = Some y) (combine cands refs) xs /\ (x == fold_right Qplus 0 xs / nq (length xs))%Q /\ (0 <= x)%Q /\ (x <= 1)%Q.
Proof.
  assert (T : forall cands refs t, length cands <= length refs -> exists xs t', chrf_total cands refs t = Some t' /\ Forall2 (fun p y => calculate_chrf (snd p) (fst p) = Some y) (combine cands refs) xs /\ (t' == t + fold_right Qplus 0 xs)%Q /\
     length xs = length cands /\ (0 <= fold_right Qplus 0 xs)%Q /\ (fold_right Qplus 0 xs <= nq (length xs))%Q).
  { induction cands as [|c cands IH]; intros refs t L; [exists [], t; split; [reflexivity|]; split; [constructor|]; cbn [fold_right length]; assert (Z0q : (nq 0 == 0)%Q) by reflexivity; split; [ring|]; split; [reflexivity|]; split; lra|]. destruct refs as [|r refs]; cbn [length] in L; [lia|]. cbn [chrf_total combine]. destruct (chrf_props r c) as (x & E & X0 & X1 & _). rewrite E.
    destruct (IH refs (t + x)%Q ltac:(lia)) as (xs & t' & E2 & F & V & LL & B1 & B2). exists (x :: xs), t'. split; [exact E2|]. split; [constructor; [exact E|exact F]|]. cbn [fold_right length]. split; [rewrite V; ring|]. split; [now rewrite LL|]. split; [lra|]. assert (Y : (nq (S (length xs)) == 1 + nq (length xs))%Q) by (unfold nq; rewrite Nat2Z.inj_succ; unfold Z.succ; rewrite inject_Z_plus; unfold inject_Z at 2; ring). lra. }
  intros cands refs NE L. destruct (T cands refs 0%Q L) as (xs & t' & E & F & V & LL & B1 & B2). unfold chrf_corpus. rewrite E. destruct (Nat.eqb_spec (length cands) 0) as [Z1|Z1]; [apply length_zero_iff_nil in Z1; contradiction|]. exists xs. eexists. split; [reflexivity|]. split; [exact F|].
  rewrite <- LL in *. assert (QP : (0 < nq (length xs))%Q) by (apply nq_pos; lia). assert (VV : (t' == fold_right Qplus 0 xs)%Q) by (rewrite V; ring). split; [rewrite VV; reflexivity|]. split; [apply Qle_shift_div_l; lra|apply Qle_shift_div_r; lra].
Qed.
Print Assumptions C123_corpus.
(** Refuted: the mean precision is a precision (at most one) *)
Theorem C123_precision_refuted : exists s r, s <> [] /\ r <> [] /\ (mean_share s r (Nat.min 4 (length r)) (Nat.min 4 (length s)) == 4)%Q.
Proof. exists (T "a"), (T "abcd"). split; [discriminate|]. split; [discriminate|]. vm_compute. reflexivity. Qed.
Print Assumptions C123_precision_refuted.
(** non-vacuity *)
Example C121_nonvacuous : wer_sent (T "the  cat sat") (T "the cat sat down") = Some (1 - nq 1 / nq 4)%Q /\ wer_corpus [T "a b"; T "c"] [T "a x"; T "c d"] = Some (1 - nq 2 / nq 4)%Q.
Proof. split; vm_compute; reflexivity. Qed.
Example C122_nonvacuous : shared (toks (T "a b a c")) (toks (T "c a b a a")) = 4 /\ gtm_cover (gtm_rows 0 (toks (T "a b a c")) (toks (T "c a b a a")) []) 0 [] [] = 4.
Proof. split; vm_compute; reflexivity. Qed.
Example C123_nonvacuous : exists x, calculate_chrf (T "abc d") (T "abc  d") = Some x /\ (x == 1)%Q /\ exists y, calculate_chrf (T "abcd") (T "abd") = Some y /\ (0 < y)%Q /\ (y < 1)%Q.
Proof. eexists. split; [vm_compute; reflexivity|]. split; [reflexivity|]. eexists. split; [vm_compute; reflexivity|]. split; reflexivity. Qed.
