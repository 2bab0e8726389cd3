(** C75, C76: the sentence length model.  Vocabulary: SlmSpec.v; code: SlmModel.v; [trained h] is the model after the training history h *)
From Coq Require Import Reals Arith ZArith List Bool Permutation Lra Lia.
From Verif Require Import RSums HmmModel SlmSpec SlmModel SlmProofs.
Import ListNotations.
Open Scope R_scope.
(** C75: incremental training, pair by pair, maintains the exact sample statistics of the whole history for each source length *)
Theorem C75_incremental_statistics : forall h s, positive h -> let L := seen_with s h in
  ((length L < 2)%nat -> get_mean_stddev (trained h) s = None) /\
  ((2 <= length L)%nat -> get_mean_stddev (trained h) s = Some (wmean L, sqrt (wvar L))).
Proof. exact stddev_spec. Qed.
Print Assumptions C75_incremental_statistics.
Theorem C75_totals : forall h, positive h -> numSents (trained h) = length h /\ slenSum (trained h) = total o_slen h /\ tlenSum (trained h) = total o_tlen h.
Proof. intros h P. destruct (train_inv h P) as (A & B & C & _). auto. Qed.
Print Assumptions C75_totals.
(** the order of the training pairs does not matter *)
Theorem C75_order : forall h h' s, positive h -> Permutation h h' -> get_mean_stddev (trained h) s = get_mean_stddev (trained h') s.
Proof.
  intros h h' s P PM. assert (P' : positive h') by (unfold positive in *; rewrite Forall_forall in *; intros x X; apply P; eapply Permutation_in; [apply Permutation_sym; exact PM|exact X]).
  assert (SF : forall f : obs -> R, forall a b, Permutation a b -> sumf f a = sumf f b) by (intros f a b Q; induction Q; cbn; lra).
  assert (PL : Permutation (seen_with s h) (seen_with s h')).
  { clear P P' SF. unfold seen_with. induction PM; cbn [filter]; auto.
    - destruct (Nat.eqb _ _); auto.
    - destruct (Nat.eqb (o_slen y) s), (Nat.eqb (o_slen x) s); auto. apply perm_swap.
    - eapply perm_trans; eauto. }
  pose proof (Permutation_length PL) as LL.
  destruct (stddev_spec h s P) as [A B], (stddev_spec h' s P') as [A' B'].
  destruct (Nat.lt_ge_cases (length (seen_with s h)) 2) as [C|C]; [rewrite A, A'; auto; lia|]. rewrite B, B' by lia.
  assert (W : weight (seen_with s h) = weight (seen_with s h')) by (apply SF; auto).
  assert (M : wmean (seen_with s h) = wmean (seen_with s h')) by (unfold wmean; rewrite W; f_equal; apply SF; auto).
  unfold wvar. rewrite M, W, LL, (SF _ _ _ PL). reflexivity.
Qed.
Print Assumptions C75_order.
Definition demoH : list obs := [ {| o_slen := 3; o_tlen := 4; o_w := 1 |}; {| o_slen := 2; o_tlen := 2; o_w := 2 |}; {| o_slen := 3; o_tlen := 6; o_w := 1 |} ].
Example C75_nonvacuous : positive demoH /\ get_mean_stddev (trained demoH) 3 = Some (5, sqrt 2) /\ get_mean_stddev (trained demoH) 2 = None.
Proof.
  assert (P : positive demoH) by (repeat constructor; cbn; lra). split; [exact P|]. split; [|apply (C75_incremental_statistics _ 2 P); cbn; lia].
  destruct (C75_incremental_statistics _ 3 P) as [_ H]. rewrite H by (cbn; lia). unfold wvar, wmean, weight, seen_with, demoH. cbn. f_equal. f_equal; [lra|f_equal; lra].
Qed.

(** C76: the probabilities of the target lengths *)
Section ERF.
Variable erf : R -> R.
Lemma cdf_params : forall h s t, positive h -> 0 < snd (params h s) ->
  sumSentLenProbNorm erf (trained h) s t = Some (Phi erf (fst (params h s)) (snd (params h s)) (IZR t + / 2)).
Proof.
  intros h s t P SD. destruct (stddev_spec h s P) as [A B]. destruct (train_inv h P) as (N1 & N2 & N3 & _). unfold params in *. unfold sumSentLenProbNorm.
  assert (NC : forall m sd x, 0 < sd -> norm_cdf erf m sd x = Some (Phi erf m sd x)) by (intros m sd x H; unfold norm_cdf; destruct (Req_EM_T sd 0); [lra|reflexivity]).
  destruct (Nat.leb_spec 2 (length (seen_with s h))) as [H|H].
  - rewrite (B H). apply NC. exact SD.
  - rewrite (A H). cbn [fst snd] in *. unfold fallback_mean. rewrite N1, N2, N3. fold (total o_slen h) (total o_tlen h).
    assert (E : (if Nat.eqb (length h) 0 then 0 else INR (total o_tlen h) / INR (length h) - INR (total o_slen h) / INR (length h)) = avg_diff h).
    { unfold avg_diff. destruct h as [|o h']; [reflexivity|]. cbn [Nat.eqb length]. unfold Rdiv. lra. }
    rewrite E. apply NC. lra.
Qed.
End ERF.
(** with a positive deviation: the probability of the length t>=1 is the mass of [t-1/2,t+1/2] under the normal distribution, floored at 1e-7 *)
Theorem C76_length_probability : forall erf h s t, sigmoid erf -> positive h -> 0 < snd (params h s) -> (1 <= t < 4294967296)%Z ->
  sentLenProb erf (trained h) s t
  = Some (Rmax (1 / 10000000) (Phi erf (fst (params h s)) (snd (params h s)) (IZR t + / 2) - Phi erf (fst (params h s)) (snd (params h s)) (IZR t - / 2))).
Proof.
  intros erf h s t SG P SD T. unfold sentLenProb, sentLenLgProbNorm. rewrite !cdf_params by auto.
  replace (pred_u32 t) with (t - 1)%Z by (unfold pred_u32; rewrite Z.mod_small; lia). rewrite minus_IZR. replace (IZR t - 1 + / 2) with (IZR t - / 2) by lra.
  unfold option_map, SW_PROB_SMOOTH. set (d := _ - _). destruct (Rlt_dec d (/ 10000000)) as [L|L].
  - rewrite exp_ln by lra. rewrite Rmax_left; [f_equal|]; lra.
  - rewrite exp_ln by lra. rewrite Rmax_right; [reflexivity|lra].
Qed.
Print Assumptions C76_length_probability.
(** without the floor the probabilities of the lengths 1..n add up to a mass below 1 *)
Theorem C76_mass : forall erf mean sd n, sigmoid erf -> 0 < sd ->
  sumf (fun t => Phi erf mean sd (INR t + / 2) - Phi erf mean sd (INR t - / 2)) (seq 1 n) = Phi erf mean sd (INR n + / 2) - Phi erf mean sd (/ 2) /\
  0 <= Phi erf mean sd (INR n + / 2) - Phi erf mean sd (/ 2) < 1.
Proof.
  intros erf mean sd n [IN BD] SD. split.
  - induction n as [|n IH]; [cbn [seq sumf INR]; rewrite Rplus_0_l; lra|]. rewrite seq_S, sumf_app, IH. cbn [sumf Nat.add]. replace (INR (S n) - / 2) with (INR n + / 2) by (rewrite S_INR; lra). lra.
  - unfold Phi. pose proof (BD ((INR n + / 2 - mean) / sd / sqrt 2)). pose proof (BD ((/ 2 - mean) / sd / sqrt 2)). split; [|lra].
    destruct n as [|n]; [cbn [INR]; rewrite Rplus_0_l; lra|]. assert ((/ 2 - mean) / sd / sqrt 2 < (INR (S n) + / 2 - mean) / sd / sqrt 2); [|apply IN in H1; lra].
    assert (0 < sqrt 2) by (apply sqrt_lt_R0; lra). unfold Rdiv. apply Rmult_lt_compat_r; [apply Rinv_0_lt_compat; auto|]. apply Rmult_lt_compat_r; [apply Rinv_0_lt_compat; auto|].
    assert (0 < INR (S n)) by (apply lt_0_INR; lia). lra.
Qed.
Print Assumptions C76_mass.
(** a source length seen with a single target length L only (at least twice): it has probability 1, and every other length the floor *)
Theorem C76_constant_length : forall erf h s L t, positive h -> (2 <= length (seen_with s h))%nat -> (forall o, In o (seen_with s h) -> o_tlen o = L) -> (1 <= t < 4294967296)%Z ->
  sentLenProb erf (trained h) s t = Some (if Z.eqb t (Z.of_nat L) then 1 else / 10000000).
Proof.
  intros erf h s L t P H2 HL T. set (O := seen_with s h) in *. assert (NO : O <> []) by (intros E; rewrite E in H2; cbn in H2; lia).
  assert (WP : 0 < weight O) by (apply weight_pos; auto; apply seen_pos; auto).
  assert (M : wmean O = INR L).
  { unfold wmean. rewrite (sumf_ext _ (fun o => o_w o * INR L)) by (intros o I; rewrite (HL o I); reflexivity). rewrite sumf_scal_r. fold (weight O). field. lra. }
  assert (V : wvar O = 0).
  { unfold wvar. rewrite (sumf_ext _ (fun o => 0)) by (intros o I; rewrite (HL o I), M; lra). rewrite sumf_0. unfold Rdiv. lra. }
  destruct (stddev_spec h s P) as [_ B]. specialize (B H2). fold O in B. rewrite M, V, sqrt_0 in B.
  unfold sentLenProb, sentLenLgProbNorm, sumSentLenProbNorm. rewrite B. unfold norm_cdf. destruct (Req_EM_T 0 0); [|lra].
  replace (pred_u32 t) with (t - 1)%Z by (unfold pred_u32; rewrite Z.mod_small; lia). rewrite minus_IZR, INR_IZR_INZ.
  unfold SW_PROB_SMOOTH. set (z := Z.of_nat L). clearbody z. clear -T.
  destruct (Z.eqb_spec t z) as [->|NE].
  - destruct (Rlt_dec (IZR z) (IZR z + / 2)); [|lra]. destruct (Rlt_dec (IZR z) (IZR z - 1 + / 2)); [lra|]. destruct (Rlt_dec (IZR z - 1 + / 2) (IZR z)); [|lra].
    cbn. destruct (Rlt_dec (1 - 0) (/ 10000000)); [lra|]. rewrite exp_ln; [f_equal|]; lra.
  - assert (D : (t <= z - 1 \/ z + 1 <= t)%Z) by lia. destruct D as [D|D]; apply IZR_le in D; [rewrite minus_IZR in D|rewrite plus_IZR in D].
    + destruct (Rlt_dec (IZR z) (IZR t + / 2)); [lra|]. destruct (Rlt_dec (IZR t + / 2) (IZR z)); [|lra]. destruct (Rlt_dec (IZR z) (IZR t - 1 + / 2)); [lra|]. destruct (Rlt_dec (IZR t - 1 + / 2) (IZR z)); [|lra].
      cbn. destruct (Rlt_dec (0 - 0) (/ 10000000)); [|lra]. rewrite exp_ln; [reflexivity|lra].
    + destruct (Rlt_dec (IZR z) (IZR t + / 2)); [|lra]. destruct (Rlt_dec (IZR z) (IZR t - 1 + / 2)); [|lra].
      cbn. destruct (Rlt_dec (1 - 1) (/ 10000000)); [|lra]. rewrite exp_ln; [reflexivity|lra].
Qed.
Print Assumptions C76_constant_length.
(** finding: the target length 0 always gets the floor: tlen-1 wraps around to 4294967295 *)
Theorem C76_length_zero_refuted : forall erf h s, sigmoid erf -> positive h -> 0 < snd (params h s) -> sentLenProb erf (trained h) s 0 = Some (/ 10000000).
Proof.
  intros erf h s SG P SD. unfold sentLenProb, sentLenLgProbNorm. rewrite !cdf_params by auto. change (pred_u32 0) with 4294967295%Z. unfold option_map, SW_PROB_SMOOTH.
  destruct (Rlt_dec _ _) as [L|L]; [rewrite exp_ln; [reflexivity|lra]|]. exfalso. apply L. set (m := fst _). set (sd := snd _) in *. destruct SG as [IN _]. unfold Phi.
  assert (0 < sqrt 2) by (apply sqrt_lt_R0; lra).
  assert ((IZR 0 + / 2 - m) / sd / sqrt 2 < (IZR 4294967295 + / 2 - m) / sd / sqrt 2).
  { unfold Rdiv. apply Rmult_lt_compat_r; [apply Rinv_0_lt_compat; auto|]. apply Rmult_lt_compat_r; [apply Rinv_0_lt_compat; auto|]. lra. }
  apply IN in H0. lra.
Qed.
Print Assumptions C76_length_zero_refuted.
(** finding: for a source length seen less than twice and shorter than the average excess of source over target lengths, the fallback mean and
    deviation are negative: the distribution function decreases, and every target length gets the floor *)
Theorem C76_negative_mean_refuted : forall erf h s t, sigmoid erf -> positive h -> (length (seen_with s h) < 2)%nat -> INR s + avg_diff h < 0 -> (1 <= t < 4294967296)%Z ->
  sentLenProb erf (trained h) s t = Some (/ 10000000) /\
  exists a b, sumSentLenProbNorm erf (trained h) s t = Some a /\ sumSentLenProbNorm erf (trained h) s (t - 1) = Some b /\ a < b.
Proof.
  intros erf h s t [IN _] P H ME T. destruct (stddev_spec h s P) as [A _]. specialize (A H). destruct (train_inv h P) as (N1 & N2 & N3 & _).
  assert (E : fallback_mean (trained h) s = INR s + avg_diff h).
  { unfold fallback_mean. rewrite N1, N2, N3. f_equal. fold (total o_slen h) (total o_tlen h). unfold avg_diff. destruct h as [|o h']; [reflexivity|]. cbn [Nat.eqb length]. unfold Rdiv. lra. }
  set (m := INR s + avg_diff h) in *.
  assert (C : forall t, sumSentLenProbNorm erf (trained h) s t = Some (norm_std_cdf erf ((IZR t + / 2 - m) / (m * / 4)))).
  { intros u. unfold sumSentLenProbNorm. rewrite A, E. unfold norm_cdf. destruct (Req_EM_T (m * / 4) 0); [lra|reflexivity]. }
  assert (D : norm_std_cdf erf ((IZR t + / 2 - m) / (m * / 4)) < norm_std_cdf erf ((IZR (t - 1) + / 2 - m) / (m * / 4))).
  { unfold norm_std_cdf. assert (0 < sqrt 2) by (apply sqrt_lt_R0; lra). assert (Q : / (m * / 4) < 0) by (apply Rinv_lt_0_compat; lra).
    assert ((IZR t + / 2 - m) / (m * / 4) / sqrt 2 < (IZR (t - 1) + / 2 - m) / (m * / 4) / sqrt 2); [|apply IN in H1; lra].
    unfold Rdiv. apply Rmult_lt_compat_r; [apply Rinv_0_lt_compat; auto|]. rewrite minus_IZR. set (q := / (m * / 4)) in *. nra. }
  split; [|do 2 eexists; split; [apply C|split; [apply C|exact D]]].
  unfold sentLenProb, sentLenLgProbNorm. rewrite !C. replace (pred_u32 t) with (t - 1)%Z by (unfold pred_u32; rewrite Z.mod_small; lia). unfold option_map, SW_PROB_SMOOTH.
  destruct (Rlt_dec _ _) as [L|L]; [rewrite exp_ln; [reflexivity|lra]|exfalso; apply L; lra].
Qed.
Print Assumptions C76_negative_mean_refuted.
Example C76_nonvacuous : positive demoH /\ 0 < snd (params demoH 3) /\ 0 < snd (params demoH 7)
  /\ (let h := [ {| o_slen := 9; o_tlen := 2; o_w := 1 |} ] in positive h /\ (length (seen_with 4 h) < 2)%nat /\ INR 4 + avg_diff h < 0)
  /\ sigmoid (fun x => x / (1 + Rabs x)).
Proof.
  split; [repeat constructor; cbn; lra|]. split.
  { unfold params, wvar, wmean, weight, seen_with, demoH. cbn. apply sqrt_lt_R0. lra. }
  split; [unfold params, seen_with, avg_diff, total, demoH; cbn; lra|]. split.
  { split; [repeat constructor; cbn; lra|]. split; [cbn; lia|]. unfold avg_diff, total. cbn. lra. }
  assert (G : forall x, 0 < 1 + Rabs x) by (intros; pose proof (Rabs_pos x); lra). split.
  - intros x y L. pose proof (G x). pose proof (G y). apply (Rmult_lt_reg_r (1 + Rabs x)); [auto|]. apply (Rmult_lt_reg_r (1 + Rabs y)); [auto|].
    replace (x / (1 + Rabs x) * (1 + Rabs x) * (1 + Rabs y)) with (x * (1 + Rabs y)) by (field; lra). replace (y / (1 + Rabs y) * (1 + Rabs x) * (1 + Rabs y)) with (y * (1 + Rabs x)) by (field; lra).
    unfold Rabs in *. destruct (Rcase_abs x), (Rcase_abs y); nra.
  - intros x. pose proof (G x). assert (A : -1 * (1 + Rabs x) < x < 1 * (1 + Rabs x)) by (unfold Rabs; destruct (Rcase_abs x); lra).
    split; apply (Rmult_lt_reg_r (1 + Rabs x)); auto; replace (x / (1 + Rabs x) * (1 + Rabs x)) with x by (field; lra); lra.
Qed.
