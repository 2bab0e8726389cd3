From Coq Require Import Reals NArith Arith List Bool Lra Lia.
From Verif Require Import AMap MathModel LogNum LogNumProofs RSums EmMath Ibm1Spec AligSpec AligModel Ibm1Model Ibm1QueryProofs Ibm1EmProofs Ibm1TrainProofs Ibm1Likelihood Ibm1SessionProofs Ibm2Spec Ibm2Model NdProofs NdTrain Ibm2QueryProofs Ibm2TrainProofs.
Import ListNotations.
Open Scope R_scope.
Lemma sum_prob_le : forall {K1 K2} (d1 : forall a b : K1, {a = b} + {a <> b}) (d2 : forall a b : K2, {a = b} + {a <> b}) T s ts, tab_inv d1 d2 T -> NoDup ts -> sumf (prob d1 d2 T s) ts <= 1.
Proof.
  intros K1 K2 d1 d2 T s ts I ND. set (all := nodup d2 (ts ++ map (fun e => snd (fst e)) (ndn T))).
  apply Rle_trans with (sumf (prob d1 d2 T s) all).
  - apply sumf_sub; [exact ND|intros x Hx; apply nodup_In, in_or_app; auto|intros; apply prob_nonneg].
  - assert (H : forall t, getNumer d1 d2 T s t <> None -> In t all).
    { intros t Ht. apply nodup_In, in_or_app. right. unfold getNumer in Ht. destruct (aget (pd d1 d2) (s, t) (ndn T)) eqn:E; [|congruence]. apply aget_some_in in E. apply (in_map (fun e => snd (fst e))) in E. exact E. }
    assert (Hp : forall t, prob d1 d2 T s t = numv d1 d2 T s t * / sumf (numv d1 d2 T s) all) by (intros; apply prob_rel; [exact I|apply NoDup_nodup|exact H]).
    rewrite (sumf_ext _ _ all (fun t _ => Hp t)), sumf_scal_r. destruct (Req_EM_T (sumf (numv d1 d2 T s) all) 0) as [->|Nz]; [lra|]. rewrite Rinv_r by exact Nz. lra.
Qed.
Section MONO.
Variable D : list pair.
Variable range : list nat.
Variable E : em2.
Hypothesis Wp : forall p, In p D -> usable p -> 0 < weight p.
Hypothesis ND : NoDup range.
Hypothesis Hr : forall n, In n range -> (n < length D)%nat.
Hypothesis IL : tab_inv N.eq_dec N.eq_dec (ltb E).
Hypothesis IA : tab_inv aposdec Nat.eq_dec (atb E).
Let U := training_set D range.
Let pr n := nth n D no_pair.
Hypothesis Un : thresholds_inactive2 (pts2 (ltb E)) (palig (atb E)) (map pr U).
Definition gold n := gen2 (pts2 (ltb E)) (palig (atb E)) (with_null (src (pr n))) (trg (pr n)).
Definition atom2 : Type := (nat * (nat * nat))%type.
Definition atoms2 : list atom2 := flat_map (fun n => map (fun q => (n, q)) (positions (with_null (src (pr n))) (trg (pr n)))) U.
Definition w2 (a : atom2) : R := weight (pr (fst a)) * (gold (fst a) (fst (snd a)) (snd (snd a)) / sumf (gold (fst a) (fst (snd a))) (seq 0 (S (length (src (pr (fst a))))))).
Lemma atoms2_in : forall n j i, In ((n, (j, i)) : atom2) atoms2 <-> In n U /\ (j < length (trg (pr n)))%nat /\ (i <= length (src (pr n)))%nat.
Proof.
  intros n j i. unfold atoms2. rewrite in_flat_map. split.
  - intros (n' & Hn & H). rewrite in_map_iff in H. destruct H as (q & Eq & Hq). inversion Eq; subst. apply positions_in in Hq as [A B]. cbn [with_null length] in B. split; [exact Hn|]. lia.
  - intros (A & B & C). exists n. split; [exact A|]. apply in_map, positions_in. cbn [with_null length]. lia.
Qed.
Lemma un2 : forall a, In a atoms2 -> / 1000000 <= gold (fst a) (fst (snd a)) (snd (snd a)) /\ / 1000000 <= w2 a.
Proof.
  intros [n [j i]] Ha. apply atoms2_in in Ha as (A & B & C). cbn [fst snd]. exact (Un (pr n) j i (in_map pr _ _ A) B C).
Qed.
Lemma w2pos : forall a, In a atoms2 -> 0 < w2 a.
Proof. intros a Ha. destruct (un2 a Ha). lra. Qed.
Section TABLE.
Context {K1 K2 : Type}.
Variable d1 : forall a b : K1, {a = b} + {a <> b}.
Variable d2 : forall a b : K2, {a = b} + {a <> b}.
Variable kf : pair -> nat * nat -> K1 * K2.
Variables T T' : ndtab K1 K2.
Hypothesis TI : tab_inv d1 d2 T.
Hypothesis H' : holds d1 d2 kf D T' (batch_ex D range E).
Definition q1 (a : atom2) : K1 := fst (kf (pr (fst a)) (snd a)).
Definition q2 (a : atom2) : K2 := snd (kf (pr (fst a)) (snd a)).
Hypothesis Told : forall a, In a atoms2 -> 0 < prob d1 d2 T (q1 a) (q2 a).
Lemma cnt_g : forall s t, cnt d1 d2 atoms2 q1 q2 w2 s t = gcounts d1 d2 kf D (batch_ex D range E) (s, t).
Proof.
  intros s t. unfold gcounts. rewrite (ex_sum D range E (fun n m => gcount d1 d2 kf (nth n D no_pair) m (s, t)) ND Hr). unfold cnt, atoms2. rewrite sumf_flat_map. apply sumf_ext. intros n Hn. fold (pr n). rewrite sumf_map.
  unfold gcount, gocc. rewrite sumf_filter. unfold pos_of. apply sumf_ext. intros [j i] Hq. pose proof Hq as Hq'. apply positions_in in Hq' as [Hj Hi]. cbn [with_null length] in Hi.
  assert (Ha : In ((n, (j, i)) : atom2) atoms2) by (apply atoms2_in; repeat split; [exact Hn|exact Hj|lia]).
  unfold q1, q2. cbn [fst snd]. destruct (pd d1 d2 (kf (pr n) (j, i)) (s, t)) as [Q|Q].
  - rewrite Q. cbn [fst snd]. destruct (d1 s s), (d2 t t); try congruence. destruct (un2 _ Ha) as [_ G]. fold (cell (new2 (ltb E) (atb E) (pr n)) j i).
    rewrite share2; [|exact IL|exact IA|intros i' Hi'; apply (un2 (n, (j, i'))), atoms2_in; repeat split; [exact Hn|exact Hj|exact Hi']|exact Hj|lia].
    unfold w2, gold in *. cbn [fst snd] in *. unfold at_least_1e6. rewrite Rmax_left; [reflexivity|exact G].
  - destruct (kf (pr n) (j, i)) as [x y]. cbn [fst snd]. destruct (d1 x s), (d2 y t); congruence.
Qed.
Definition S1 := nodup d1 (map q1 atoms2).
Definition S2 := nodup d2 (map q2 atoms2).
Lemma new_cnt : forall s t, prob d1 d2 T' s t = cnt d1 d2 atoms2 q1 q2 w2 s t / sumf (cnt d1 d2 atoms2 q1 q2 w2 s) S2.
Proof.
  intros s t. rewrite (holds_prob d1 d2 kf D T' (batch_ex D range E) s t S2 H' (NoDup_nodup _ _)).
  - rewrite cnt_g. f_equal. apply sumf_ext. intros. symmetry. apply cnt_g.
  - intros n t' X Y. apply nodup_In. unfold batch_ex in X. destruct (in_dec Nat.eq_dec n (training_set D range)) as [I|]; [|congruence].
    unfold gocc in Y. destruct (filter _ _) as [|q l] eqn:Eq; [congruence|]. assert (I1 : In q (q :: l)) by (left; reflexivity). rewrite <- Eq in I1. apply filter_In in I1 as [I1 I2]. destruct (pd _ _ _ _) as [Q|]; [|discriminate].
    apply in_map_iff. exists (n, q). split; [unfold q2; cbn [fst snd]; fold (pr n) in Q; rewrite Q; reflexivity|]. destruct q as [j i]. unfold pos_of in I1. apply positions_in in I1 as [A B]. cbn [with_null length] in B. apply atoms2_in. repeat split; [exact I|exact A|exact (proj1 (Nat.lt_succ_r _ _) B)].
Qed.
Lemma new_pos : forall a, In a atoms2 -> 0 < prob d1 d2 T' (q1 a) (q2 a).
Proof.
  intros a Ha. rewrite new_cnt. apply Rdiv_lt_0_compat; [apply cnt_pos; [exact w2pos|exact Ha]|].
  apply (sumf_pos _ _ (q2 a)); [intros; apply cnt_nonneg; exact w2pos|apply nodup_In, in_map, Ha|apply cnt_pos; [exact w2pos|exact Ha]].
Qed.
Lemma table_gain : 0 <= sumf (fun a => w2 a * (ln (prob d1 d2 T' (q1 a) (q2 a)) - ln (prob d1 d2 T (q1 a) (q2 a)))) atoms2.
Proof.
  rewrite (sumf_ext _ (fun a => w2 a * (ln (cnt d1 d2 atoms2 q1 q2 w2 (q1 a) (q2 a) / sumf (cnt d1 d2 atoms2 q1 q2 w2 (q1 a)) S2) - ln (prob d1 d2 T (q1 a) (q2 a))))).
  - apply (mstep d1 d2 atoms2 q1 q2 w2 w2pos S1 S2); try apply NoDup_nodup.
    + intros a Ha. apply nodup_In, in_map, Ha.
    + intros a Ha. apply nodup_In, in_map, Ha.
    + exact Told.
    + intros. apply prob_nonneg.
    + intros s. apply sum_prob_le; [exact TI|apply NoDup_nodup].
  - intros a _. rewrite new_cnt. reflexivity.
Qed.
End TABLE.
Let E' := efficientBatchTrainingForRange2 D range E.
Definition gnew n := gen2 (pts2 (ltb E')) (palig (atb E')) (with_null (src (pr n))) (trg (pr n)).
Lemma gold_split : forall n j i, gold n j i = prob N.eq_dec N.eq_dec (ltb E) (q1 kfl (n, (j, i))) (q2 kfl (n, (j, i))) * prob aposdec Nat.eq_dec (atb E) (q1 kfa (n, (j, i))) (q2 kfa (n, (j, i))).
Proof. intros. unfold gold, gen2, q1, q2, kfl, kfa, pts2, palig. cbn [fst snd]. rewrite Nat.add_1_r. reflexivity. Qed.
Lemma gnew_split : forall n j i, gnew n j i = prob N.eq_dec N.eq_dec (ltb E') (q1 kfl (n, (j, i))) (q2 kfl (n, (j, i))) * prob aposdec Nat.eq_dec (atb E') (q1 kfa (n, (j, i))) (q2 kfa (n, (j, i))).
Proof. intros. unfold gnew, gen2, q1, q2, kfl, kfa, pts2, palig. cbn [fst snd]. rewrite Nat.add_1_r. reflexivity. Qed.
Lemma old_pos : forall a, In a atoms2 -> 0 < prob N.eq_dec N.eq_dec (ltb E) (q1 kfl a) (q2 kfl a) /\ 0 < prob aposdec Nat.eq_dec (atb E) (q1 kfa a) (q2 kfa a).
Proof.
  intros [n [j i]] Ha. destruct (un2 _ Ha) as [X _]. cbn [fst snd] in X. rewrite gold_split in X. pose proof (prob_nonneg N.eq_dec N.eq_dec (ltb E) (q1 kfl (n, (j, i))) (q2 kfl (n, (j, i)))) as A.
  pose proof (prob_nonneg aposdec Nat.eq_dec (atb E) (q1 kfa (n, (j, i))) (q2 kfa (n, (j, i)))) as B. set (x := prob N.eq_dec N.eq_dec _ _ _) in *. set (y := prob aposdec Nat.eq_dec _ _ _) in *. split; apply Rnot_le_lt; intros Z.
  - assert (x = 0) by lra. rewrite H, Rmult_0_l in X. lra.
  - assert (y = 0) by lra. rewrite H, Rmult_0_r in X. lra.
Qed.
Lemma gnew_pos : forall n j i, In ((n, (j, i)) : atom2) atoms2 -> 0 < gnew n j i.
Proof.
  intros n j i Ha. destruct (batch2 D range E Wp ND Hr) as [HL HA]. rewrite gnew_split. apply Rmult_lt_0_compat; [apply (new_pos N.eq_dec N.eq_dec kfl (ltb E') HL _ Ha)|apply (new_pos aposdec Nat.eq_dec kfa (atb E') HA _ Ha)].
Qed.
Lemma gold_pos : forall n j i, In ((n, (j, i)) : atom2) atoms2 -> 0 < gold n j i.
Proof. intros n j i Ha. destruct (un2 _ Ha) as [X _]. cbn [fst snd] in X. lra. Qed.
Definition lnZ2 (g : nat -> nat -> nat -> R) (n : nat) : R := sumf (fun j => ln (sumf (g n j) (seq 0 (S (length (src (pr n))))))) (seq 0 (length (trg (pr n)))).
Lemma gain2 : sumf (fun n => weight (pr n) * lnZ2 gold n) U <= sumf (fun n => weight (pr n) * lnZ2 gnew n) U.
Proof.
  destruct (batch2 D range E Wp ND Hr) as [HL HA]. fold E' in HL, HA.
  pose proof (table_gain N.eq_dec N.eq_dec kfl (ltb E) (ltb E') IL HL (fun a Ha => proj1 (old_pos a Ha))) as M1.
  pose proof (table_gain aposdec Nat.eq_dec kfa (atb E) (atb E') IA HA (fun a Ha => proj2 (old_pos a Ha))) as M2.
  assert (M : 0 <= sumf (fun a : atom2 => w2 a * (ln (gnew (fst a) (fst (snd a)) (snd (snd a))) - ln (gold (fst a) (fst (snd a)) (snd (snd a))))) atoms2).
  { rewrite (sumf_ext _ (fun a => w2 a * (ln (prob N.eq_dec N.eq_dec (ltb E') (q1 kfl a) (q2 kfl a)) - ln (prob N.eq_dec N.eq_dec (ltb E) (q1 kfl a) (q2 kfl a))) +
       w2 a * (ln (prob aposdec Nat.eq_dec (atb E') (q1 kfa a) (q2 kfa a)) - ln (prob aposdec Nat.eq_dec (atb E) (q1 kfa a) (q2 kfa a))))).
    - rewrite sumf_plus. lra.
    - intros [n [j i]] Ha. cbn [fst snd]. destruct (old_pos _ Ha) as [P1 P2]. rewrite gnew_split, gold_split. rewrite !ln_mult; [lra|exact P1|exact P2|apply (new_pos N.eq_dec N.eq_dec kfl (ltb E') HL _ Ha)|apply (new_pos aposdec Nat.eq_dec kfa (atb E') HA _ Ha)]. }
  assert (J : sumf (fun a : atom2 => w2 a * (ln (gnew (fst a) (fst (snd a)) (snd (snd a))) - ln (gold (fst a) (fst (snd a)) (snd (snd a))))) atoms2 <= sumf (fun n => weight (pr n) * (lnZ2 gnew n - lnZ2 gold n)) U).
  { unfold atoms2 at 1. rewrite sumf_flat_map. apply sumf_le. intros n Hn. rewrite sumf_map. unfold positions. rewrite sumf_flat_map. unfold lnZ2. rewrite <- sumf_minus, <- sumf_scal. apply sumf_le. intros j Hj. apply in_seq in Hj.
    rewrite sumf_map. cbn [fst snd with_null length].
    assert (Hin : forall i, In i (seq 0 (S (length (src (pr n))))) -> In ((n, (j, i)) : atom2) atoms2) by (intros i Hi; apply in_seq in Hi; apply atoms2_in; repeat split; [exact Hn|lia|lia]).
    pose proof (jensen (seq 0 (S (length (src (pr n))))) (gold n j) (gnew n j)) as Q.
    eapply Rle_trans; [|apply Rmult_le_compat_l; [|apply Q]].
    - rewrite <- sumf_scal. right. apply sumf_ext. intros i Hi. unfold w2. cbn [fst snd]. rewrite Rmult_assoc. reflexivity.
    - apply training_set_in in Hn as [A B]. left. apply Wp; [apply nth_In, Hr, A|exact B].
    - discriminate.
    - intros i Hi. pose proof (Hin i Hi) as Ha. split; [apply gold_pos, Ha|apply gnew_pos, Ha]. }
  rewrite (sumf_ext (fun n => weight (pr n) * (lnZ2 gnew n - lnZ2 gold n)) (fun n => weight (pr n) * lnZ2 gnew n - weight (pr n) * lnZ2 gold n)) in J by (intros; lra).
  rewrite sumf_minus in J. lra.
Qed.
Lemma zpos : forall (g : nat -> nat -> nat -> R), (forall n j i, In ((n, (j, i)) : atom2) atoms2 -> 0 < g n j i) -> forall n j, In n U -> (j < length (trg (pr n)))%nat -> 0 < sumf (g n j) (seq 0 (S (length (src (pr n))))).
Proof.
  intros g Hg n j Hn Hj. apply (sumf_pos _ _ 0%nat); [|apply in_seq; lia|apply Hg, atoms2_in; repeat split; [exact Hn|exact Hj|lia]].
  intros i Hi. apply in_seq in Hi. left. apply Hg, atoms2_in. repeat split; [exact Hn|exact Hj|lia].
Qed.
Lemma ln_total2 : forall q al n, let g := fun n => gen2 q al (with_null (src (pr n))) (trg (pr n)) in (forall j, (j < length (trg (pr n)))%nat -> 0 < sumf (g n j) (seq 0 (S (length (src (pr n)))))) ->
  0 < total2 q al (with_null (src (pr n))) (trg (pr n)) /\ ln (total2 q al (with_null (src (pr n))) (trg (pr n))) = lnZ2 g n.
Proof.
  intros q al n g H. rewrite total2_prod by discriminate. change (length (with_null (src (pr n)))) with (S (length (src (pr n)))). split.
  - apply prodf_pos. intros k Hk. apply in_seq in Hk. apply H. lia.
  - rewrite ln_prodf; [reflexivity|]. intros k Hk. apply in_seq in Hk. apply H. lia.
Qed.
Theorem weighted_monotone2 :
  (forall n, In n U -> 0 < total2 (pts2 (ltb E)) (palig (atb E)) (with_null (src (pr n))) (trg (pr n)) /\ 0 < total2 (pts2 (ltb E')) (palig (atb E')) (with_null (src (pr n))) (trg (pr n))) /\
  sumf (fun n => weight (pr n) * ln (total2 (pts2 (ltb E)) (palig (atb E)) (with_null (src (pr n))) (trg (pr n)))) U
    <= sumf (fun n => weight (pr n) * ln (total2 (pts2 (ltb E')) (palig (atb E')) (with_null (src (pr n))) (trg (pr n)))) U.
Proof.
  split.
  - intros n Hn. split; apply ln_total2; intros j Hj; [apply (zpos gold gold_pos n j Hn Hj)|apply (zpos gnew gnew_pos n j Hn Hj)].
  - rewrite (sumf_ext _ (fun n => weight (pr n) * lnZ2 gold n)); [rewrite (sumf_ext (fun n => weight (pr n) * ln (total2 (pts2 (ltb E')) _ _ _)) (fun n => weight (pr n) * lnZ2 gnew n)); [exact gain2|]|].
    + intros n Hn. destruct (ln_total2 (pts2 (ltb E')) (palig (atb E')) n) as [_ ->]; [intros j Hj; apply (zpos gnew gnew_pos n j Hn Hj)|reflexivity].
    + intros n Hn. destruct (ln_total2 (pts2 (ltb E)) (palig (atb E)) n) as [_ ->]; [intros j Hj; apply (zpos gold gold_pos n j Hn Hj)|reflexivity].
Qed.
End MONO.
Lemma loglik2_val : forall L A slm ps, (forall p, In p ps -> usable p -> 0 < total2 (pts2 L) (palig A) (with_null (src p)) (trg p)) ->
  loglikelihood2 L A slm ps = Fin (sumf (fun p => slm (length (src p)) (length (trg p)) + ln (total2 (pts2 L) (palig A) (with_null (src p)) (trg p)))
                                  (filter (fun p => sentenceLengthIsOk (src p) && sentenceLengthIsOk (trg p)) ps)).
Proof.
  intros L A slm ps H. unfold loglikelihood2.
  assert (G : forall a, fold_left (fun a p => if sentenceLengthIsOk (src p) && sentenceLengthIsOk (trg p) then lgadd a (calcLgProb2 L A slm (src p) (trg p)) else a) ps (Fin a)
     = Fin (a + sumf (fun p => slm (length (src p)) (length (trg p)) + ln (total2 (pts2 L) (palig A) (with_null (src p)) (trg p))) (filter (fun p => sentenceLengthIsOk (src p) && sentenceLengthIsOk (trg p)) ps))).
  { induction ps as [|p ps IH]; intros a; cbn [fold_left filter]; [cbn; f_equal; lra|]. destruct (sentenceLengthIsOk (src p) && sentenceLengthIsOk (trg p)) eqn:U.
    - pose proof (H p (or_introl eq_refl) (proj1 (len_ok p) U)) as P. rewrite calcLgProb2_ok.
      rewrite lgln_pos by (apply Rmult_lt_0_compat; [apply exp_pos|exact P]). rewrite ln_mult, ln_exp by (try apply exp_pos; exact P). cbn [lgadd]. rewrite IH; [|intros; apply H; [right; assumption|assumption]]. cbn [sumf]. f_equal. lra.
    - apply IH. intros; apply H; [right; assumption|assumption]. }
  rewrite (G 0). f_equal. lra.
Qed.
Theorem loglik2_monotone : forall D range E slm, (forall p, In p D -> weight p = 1) -> NoDup range -> (forall n, In n range -> (n < length D)%nat) -> tab_inv N.eq_dec N.eq_dec (ltb E) -> tab_inv aposdec Nat.eq_dec (atb E) ->
  thresholds_inactive2 (pts2 (ltb E)) (palig (atb E)) (map (fun n => nth n D no_pair) (training_set D range)) ->
  let E' := efficientBatchTrainingForRange2 D range E in
  exists a b, loglikelihood2 (ltb E) (atb E) slm (map (fun n => nth n D no_pair) range) = Fin a /\
    loglikelihood2 (ltb E') (atb E') slm (map (fun n => nth n D no_pair) range) = Fin b /\ a <= b.
Proof.
  intros D range E slm W ND Hr IL IA Un E'. assert (Wp : forall p, In p D -> usable p -> 0 < weight p) by (intros p Hp _; rewrite W by exact Hp; lra).
  destruct (weighted_monotone2 D range E Wp ND Hr IL IA Un) as [P M]. fold E' in P, M.
  rewrite !loglik2_val.
  - do 2 eexists. split; [reflexivity|]. split; [reflexivity|]. rewrite !filter_map_swap. rewrite !sumf_map, !sumf_plus. apply Rplus_le_compat_l.
    assert (X : forall f : nat -> R, sumf f (filter (fun x => usableb D x) range) = sumf f (training_set D range)) by (intros f; rewrite sumf_filter; apply training_set_sum).
    unfold usableb in X. rewrite !X.
    assert (Y : forall f : nat -> R, sumf (fun n => weight (nth n D no_pair) * f n) (training_set D range) = sumf f (training_set D range)) by (intros f; apply sumf_ext; intros n Hn; apply training_set_in in Hn as [Hn _]; rewrite W by (apply nth_In, Hr, Hn); lra).
    rewrite (Y (fun n => ln (total2 (pts2 (ltb E)) (palig (atb E)) (with_null (src (nth n D no_pair))) (trg (nth n D no_pair))))) in M.
    rewrite (Y (fun n => ln (total2 (pts2 (ltb E')) (palig (atb E')) (with_null (src (nth n D no_pair))) (trg (nth n D no_pair))))) in M. exact M.
  - intros p Hp Us. apply in_map_iff in Hp as (n & <- & Hn). apply P. apply training_set_in. auto.
  - intros p Hp Us. apply in_map_iff in Hp as (n & <- & Hn). apply P. apply training_set_in. auto.
Qed.
