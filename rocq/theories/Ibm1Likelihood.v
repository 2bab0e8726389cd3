From Coq Require Import Reals NArith Arith List Bool Lra Lia Permutation.
From Verif Require Import AMap MathModel LogNum LogNumProofs RSums EmMath Ibm1Spec Ibm1Model Ibm1QueryProofs Ibm1EmProofs Ibm1TrainProofs.
Import ListNotations.
Open Scope R_scope.
Lemma sum_pts_le : forall T s ts, tab_inv T -> NoDup ts -> sumf (pts T s) ts <= 1.
Proof.
  intros T s ts I ND. set (all := nodup N.eq_dec (ts ++ map (fun e => snd (fst e)) (tnum T))).
  apply Rle_trans with (sumf (pts T s) all).
  - apply sumf_sub; [exact ND|intros x Hx; apply nodup_In, in_or_app; auto|intros; apply pts_nonneg].
  - assert (H : forall t, getLexNumer T s t <> None -> In t all).
    { intros t Ht. apply nodup_In, in_or_app. right. unfold getLexNumer in Ht. destruct (aget pairdec (s, t) (tnum T)) eqn:E; [|congruence]. apply aget_some_in in E. apply (in_map (fun e => snd (fst e))) in E. exact E. }
    assert (Hp : forall t, pts T s t = numv T s t * / sumf (numv T s) all) by (intros; apply pts_rel; [exact I|apply NoDup_nodup|exact H]).
    rewrite (sumf_ext _ _ all (fun t _ => Hp t)), sumf_scal_r. destruct (Req_EM_T (sumf (numv T s) all) 0) as [->|Nz]; [lra|]. rewrite Rinv_r by exact Nz. lra.
Qed.
Section MONO.
Variable D : list pair.
Variable range : list nat.
Variable E : em.
Hypothesis Wp : forall p, In p D -> usable p -> 0 < weight p.
Hypothesis ND : NoDup range.
Hypothesis Hr : forall n, In n range -> (n < length D)%nat.
Hypothesis Ti : tab_inv (tab E).
Let U := training_set D range.
Let pr n := nth n D no_pair.
Hypothesis Un : thresholds_inactive (pts (tab E)) (map pr U).
Let T := tab E.
Let T' := tab (efficientBatchTrainingForRange D range E).
Definition atom : Type := (nat * (nat * nat))%type.
Definition ns_of (a : atom) : list N := with_null (src (pr (fst a))).
Definition ts_of (a : atom) : list N := trg (pr (fst a)).
Definition atoms : list atom := flat_map (fun n => map (fun q => (n, q)) (positions (with_null (src (pr n))) (trg (pr n)))) U.
Definition k1 (a : atom) : N := nth (snd (snd a)) (ns_of a) 0%N.
Definition k2 (a : atom) : N := nth (fst (snd a)) (ts_of a) 0%N.
Definition g (a : atom) : R := weight (pr (fst a)) * (pts T (k1 a) (k2 a) / sumf (fun y => pts T y (k2 a)) (ns_of a)).
Lemma atoms_in : forall a, In a atoms -> In (fst a) U /\ In (k1 a) (ns_of a) /\ In (k2 a) (ts_of a) /\ (snd (snd a) < length (ns_of a))%nat /\ (fst (snd a) < length (ts_of a))%nat.
Proof.
  intros [n [j i]] H. unfold atoms in H. rewrite in_flat_map in H. destruct H as (n' & Hn & H). rewrite in_map_iff in H. destruct H as (q & Eq & Hq). inversion Eq; subst.
  apply positions_in in Hq as [Hj Hi]. cbn [fst snd]. unfold k1, k2, ns_of, ts_of. cbn [fst snd]. split; [exact Hn|]. split; [apply nth_In; exact Hi|]. split; [apply nth_In; exact Hj|]. split; assumption.
Qed.
Lemma un_at : forall a, In a atoms -> / 1000000 <= pts T (k1 a) (k2 a) /\ / 1000000 <= g a.
Proof.
  intros a Ha. destruct (atoms_in a Ha) as (A & B & C & _). apply (Un (pr (fst a)) (k1 a) (k2 a)); [apply in_map; exact A|exact B|exact C].
Qed.
Lemma wpos_at : forall n, In n U -> 0 < weight (pr n).
Proof. intros n Hn. apply training_set_in in Hn as [A B]. apply Wp; [apply nth_In, Hr, A|exact B]. Qed.
Lemma un_row : forall n t, In n U -> In t (trg (pr n)) -> unsmoothed_at T (with_null (src (pr n))) t.
Proof.
  intros n t Hn Ht x Hx. destruct (Un (pr n) x t (in_map pr _ _ Hn) Hx Ht) as [A _]. fold T in A. split; [|exact A]. intros G. unfold pts, unsmoothed_logpts in A. rewrite G in A. cbn in A. lra.
Qed.
Lemma cell_share : forall n j i, In n U -> (j < length (trg (pr n)))%nat -> (i < length (with_null (src (pr n))))%nat ->
  cell (new_of T (pr n)) j i = pts T (nth i (with_null (src (pr n))) 0%N) (nth j (trg (pr n)) 0%N) / sumf (fun y => pts T y (nth j (trg (pr n)) 0%N)) (with_null (src (pr n))).
Proof.
  intros n j i Hn Hj Hi. unfold cell, new_of, anji_aux. rewrite (nth_indep _ [] (anji_row T (with_null (src (pr n))) 0%N)) by (now rewrite map_length). rewrite (map_nth (anji_row T _)).
  apply anji_row_share; [apply un_row; [exact Hn|apply nth_In; exact Hj]|exact Hi].
Qed.
Lemma cnt_numv : forall s t, cnt N.eq_dec N.eq_dec atoms k1 k2 g s t = numv T' s t.
Proof.
  intros s t. destruct (batch_pass D range E Wp ND Hr) as (_ & V & _). unfold T'. rewrite V. unfold cnt, atoms. rewrite sumf_flat_map. apply sumf_ext. intros n Hn. fold (pr n). rewrite sumf_map.
  unfold pair_count, occ. rewrite sumf_filter. apply sumf_ext. intros [j i] Hq. pose proof Hq as Hq'. apply positions_in in Hq' as [Hj Hi]. cbn [fst snd]. unfold k1, k2, ns_of, ts_of. cbn [fst snd].
  rewrite <- key_test. set (a := nth i (with_null (src (pr n))) 0%N). set (b := nth j (trg (pr n)) 0%N).
  destruct (N.eq_dec a s) as [Ea|Ea], (N.eq_dec b t) as [Eb|Eb]; destruct (pairdec (a, b) (s, t)) as [Ep|Ep]; try (exfalso; congruence); try reflexivity.
  assert (Ha : In ((n, (j, i)) : atom) atoms) by (unfold atoms; rewrite in_flat_map; exists n; split; [exact Hn|apply in_map; exact Hq]).
  destruct (un_at _ Ha) as [_ G]. fold (cell (new_of (tab E) (pr n)) j i). fold T. rewrite cell_share by assumption. fold a b. unfold g, k1, k2, ns_of, ts_of in G |- *. cbn [fst snd] in G |- *.
  fold a b in G |- *. unfold at_least_1e6. rewrite Rmax_left; [reflexivity|exact G].
Qed.
Definition S1 := nodup N.eq_dec (map k1 atoms).
Definition S2 := nodup N.eq_dec (map k2 atoms).
Lemma th'_cnt : forall s t, pts T' s t = cnt N.eq_dec N.eq_dec atoms k1 k2 g s t / sumf (cnt N.eq_dec N.eq_dec atoms k1 k2 g s) S2.
Proof.
  intros s t. destruct (batch_pass D range E Wp ND Hr) as (I & _ & Hh). rewrite (pts_rel T' s t S2 I (NoDup_nodup _ _)).
  - rewrite cnt_numv. f_equal. apply sumf_ext. intros. symmetry. apply cnt_numv.
  - intros w Hw. apply Hh in Hw as (n & Hn & Ho). apply nodup_In. unfold cooc, occ in Ho. fold (pr n) in Ho. destruct (filter _ _) as [|q l] eqn:Eq; [congruence|].
    assert (I1 : In q (q :: l)) by (left; reflexivity). rewrite <- Eq in I1. apply filter_In in I1 as [I1 I2]. apply andb_true_iff in I2 as [_ I2]. apply N.eqb_eq in I2.
    apply in_map_iff. exists (n, q). split; [exact I2|]. unfold atoms. rewrite in_flat_map. exists n. split; [exact Hn|apply in_map; exact I1].
Qed.
Lemma gpos : forall a, In a atoms -> 0 < g a.
Proof. intros a Ha. destruct (un_at a Ha). lra. Qed.
Lemma th'_pos : forall a, In a atoms -> 0 < pts T' (k1 a) (k2 a).
Proof.
  intros a Ha. rewrite th'_cnt. apply Rdiv_lt_0_compat; [apply cnt_pos; [exact gpos|exact Ha]|].
  apply (sumf_pos _ _ (k2 a)); [intros; apply cnt_nonneg; exact gpos|apply nodup_In, in_map, Ha|apply cnt_pos; [exact gpos|exact Ha]].
Qed.
Definition lnZ (q : N -> N -> R) (n : nat) : R := sumf (fun j => ln (sumf (fun y => q y (nth j (trg (pr n)) 0%N)) (with_null (src (pr n))))) (seq 0 (length (trg (pr n)))).
Lemma gain : sumf (fun n => weight (pr n) * lnZ (pts T) n) U <= sumf (fun n => weight (pr n) * lnZ (pts T') n) U.
Proof.
  assert (M : 0 <= sumf (fun a => g a * (ln (pts T' (k1 a) (k2 a)) - ln (pts T (k1 a) (k2 a)))) atoms).
  { rewrite (sumf_ext _ (fun a => g a * (ln (cnt N.eq_dec N.eq_dec atoms k1 k2 g (k1 a) (k2 a) / sumf (cnt N.eq_dec N.eq_dec atoms k1 k2 g (k1 a)) S2) - ln (pts T (k1 a) (k2 a))))).
    - apply (mstep N.eq_dec N.eq_dec atoms k1 k2 g gpos S1 S2); try apply NoDup_nodup.
      + intros a Ha. apply nodup_In, in_map, Ha.
      + intros a Ha. apply nodup_In, in_map, Ha.
      + intros a Ha. destruct (un_at a Ha). lra.
      + intros. apply pts_nonneg.
      + intros s. apply sum_pts_le; [exact Ti|apply NoDup_nodup].
    - intros a _. rewrite th'_cnt. reflexivity. }
  assert (J : sumf (fun a => g a * (ln (pts T' (k1 a) (k2 a)) - ln (pts T (k1 a) (k2 a)))) atoms <= sumf (fun n => weight (pr n) * (lnZ (pts T') n - lnZ (pts T) n)) U).
  { unfold atoms at 1. rewrite sumf_flat_map. apply sumf_le. intros n Hn. rewrite sumf_map. unfold positions. rewrite sumf_flat_map. unfold lnZ. rewrite <- sumf_minus, <- sumf_scal. apply sumf_le. intros j Hj. apply in_seq in Hj.
    rewrite sumf_map. cbn [fst snd]. set (ns := with_null (src (pr n))). set (t := nth j (trg (pr n)) 0%N).
    pose proof (jensen (seq 0 (length ns)) (fun i => pts T (nth i ns 0%N) t) (fun i => pts T' (nth i ns 0%N) t)) as Q.
    rewrite (sum_nth (fun y => pts T y t) ns), (sum_nth (fun y => pts T' y t) ns) in Q.
    assert (Hin : forall i, In i (seq 0 (length ns)) -> In ((n, (j, i)) : atom) atoms).
    { intros i Hi. apply in_seq in Hi. unfold atoms. rewrite in_flat_map. exists n. split; [exact Hn|]. apply in_map, positions_in. fold ns. lia. }
    eapply Rle_trans; [|apply Rmult_le_compat_l; [left; apply wpos_at; exact Hn|apply Q]].
    - rewrite <- sumf_scal. right. apply sumf_ext. intros i Hi. unfold g, k1, k2, ns_of, ts_of. cbn [fst snd]. fold ns. fold t. rewrite Rmult_assoc. reflexivity.
    - discriminate.
    - intros i Hi. pose proof (Hin i Hi) as Ha. split; [destruct (un_at _ Ha) as [X _]; unfold k1, k2, ns_of, ts_of in X; cbn [fst snd] in X; fold ns t in X; lra|exact (th'_pos _ Ha)]. }
  rewrite (sumf_ext (fun n => weight (pr n) * (lnZ (pts T') n - lnZ (pts T) n)) (fun n => weight (pr n) * lnZ (pts T') n - weight (pr n) * lnZ (pts T) n)) in J by (intros; lra).
  rewrite sumf_minus in J. lra.
Qed.
Lemma pos_old : forall n w, In n U -> In w (trg (pr n)) -> 0 < sumf (fun y => pts T y w) (with_null (src (pr n))).
Proof.
  intros n w Hn Hw. apply (sumf_pos _ _ 0%N); [intros; apply pts_nonneg|left; reflexivity|]. destruct (Un (pr n) 0%N w (in_map pr _ _ Hn) (or_introl eq_refl) Hw) as [A _]. fold T in A. lra.
Qed.
Lemma pos_new : forall n w, In n U -> In w (trg (pr n)) -> 0 < sumf (fun y => pts T' y w) (with_null (src (pr n))).
Proof.
  intros n w Hn Hw. apply (sumf_pos _ _ 0%N); [intros; apply pts_nonneg|left; reflexivity|]. apply (In_nth _ _ 0%N) in Hw. destruct Hw as (j & Hj & <-).
  apply (th'_pos (n, (j, 0%nat))). unfold atoms. rewrite in_flat_map. exists n. split; [exact Hn|]. apply in_map, positions_in. split; [exact Hj|cbn; lia].
Qed.
Lemma ln_total : forall q n, (forall w, In w (trg (pr n)) -> 0 < sumf (fun y => q y w) (with_null (src (pr n)))) ->
  0 < total q (with_null (src (pr n))) (trg (pr n)) /\
  ln (total q (with_null (src (pr n))) (trg (pr n))) = ln (/ INR (S (length (src (pr n)))) ^ length (trg (pr n))) + lnZ q n.
Proof.
  intros q n H. rewrite total_prod by discriminate. assert (A : 0 < / INR (length (with_null (src (pr n)))) ^ length (trg (pr n))) by (apply Rinv_0_lt_compat, pow_lt, lt_0_INR; cbn; lia).
  split; [apply Rmult_lt_0_compat; [exact A|apply prodf_pos; exact H]|]. rewrite ln_mult; [|exact A|apply prodf_pos; exact H]. f_equal. rewrite ln_prodf by exact H. unfold lnZ.
  rewrite (sum_nth (fun w => ln (sumf (fun y => q y w) (with_null (src (pr n))))) (trg (pr n))). reflexivity.
Qed.
Theorem weighted_monotone :
  (forall n, In n U -> 0 < total (pts T) (with_null (src (pr n))) (trg (pr n)) /\ 0 < total (pts T') (with_null (src (pr n))) (trg (pr n))) /\
  sumf (fun n => weight (pr n) * ln (total (pts T) (with_null (src (pr n))) (trg (pr n)))) U <= sumf (fun n => weight (pr n) * ln (total (pts T') (with_null (src (pr n))) (trg (pr n)))) U.
Proof.
  split.
  - intros n Hn. split; apply ln_total; intros; [apply pos_old|apply pos_new]; assumption.
  - rewrite (sumf_ext _ (fun n => weight (pr n) * ln (/ INR (S (length (src (pr n)))) ^ length (trg (pr n))) + weight (pr n) * lnZ (pts T) n)).
    2:{ intros n Hn. destruct (ln_total (pts T) n) as [_ ->]; [intros; apply pos_old; assumption|lra]. }
    rewrite (sumf_ext (fun n => weight (pr n) * ln (total (pts T') _ _)) (fun n => weight (pr n) * ln (/ INR (S (length (src (pr n)))) ^ length (trg (pr n))) + weight (pr n) * lnZ (pts T') n)).
    2:{ intros n Hn. destruct (ln_total (pts T') n) as [_ ->]; [intros; apply pos_new; assumption|lra]. }
    rewrite !sumf_plus. pose proof gain. lra.
Qed.
End MONO.
