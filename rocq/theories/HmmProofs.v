From Coq Require Import Reals NArith Arith List Bool Lra Lia.
From Verif Require Import RSums MathModel MathProofs LogNum AligSpec AligModel AligProofs HmmSpec HmmModel HmmVitProofs HmmCacheProofs HmmFwdProofs.
Import ListNotations.
Open Scope R_scope.
(** hypotheses on the parameters: smoothing factors strictly between 0 and 1, a target vocabulary; no ratio of the tables above 1 *)
Definition smoothing_ok (M : hmm) : Prop := 0 < lsf M < 1 /\ 0 < asf M < 1 /\ (0 < HmmModel.vocab M)%nat /\ match p0 M with Some p => 0 < p < 1 | None => True end.
Definition tables_proper (M : hmm) : Prop :=
  (forall s t n d, lexNumer M s t = Some n -> lexDenom M s = Some d -> n <= d) /\
  (forall p sl i n d, aligNumer M p sl i = Some n -> aligDenom M p sl = Some d -> n <= d).
Lemma small_neg : exp SMALL_LG_NUM < 1.
Proof. rewrite <- exp_0. apply exp_increasing. unfold SMALL_LG_NUM. lra. Qed.
Lemma ln_inv_INR : forall k, (0 < k)%nat -> exp (ln (1 / INR k)) = / INR k.
Proof. intros k K. rewrite exp_ln; [lra|]. apply lt_0_INR in K. apply Rdiv_lt_0_compat; lra. Qed.
Section P.
Variable M : hmm.
Hypothesis SM : smoothing_ok M.
Lemma logpts_exp : forall s t, exp (logpts M s t) = interpolated (lsf M) (exp (unsmoothed_logpts M s t)) (HmmModel.vocab M).
Proof.
  intros. destruct SM as (L & _ & V & _). unfold logpts, interpolated. rewrite exp_sumlog, !exp_plus, ln_inv_INR by auto. rewrite !exp_ln by lra. reflexivity.
Qed.
Definition fan (prev slen : nat) : nat := if (prev =? 0)%nat then (2 * slen)%nat else (slen + 1)%nat.
Lemma logaProb_exp : forall prev slen i, (0 < slen)%nat -> isValidAlig prev slen i = true ->
  exp (logaProb M prev slen i) = interpolated (asf M) (exp (unsmoothed_logaProb M prev slen i)) (fan prev slen).
Proof.
  intros prev slen i S V. destruct SM as (_ & L & _ & _). unfold logaProb, interpolated, fan. rewrite V, exp_sumlog.
  destruct (prev =? 0)%nat; rewrite !exp_plus, ln_inv_INR by lia; rewrite !exp_ln by lra; reflexivity.
Qed.
Lemma interp_le1 : forall lam p k, 0 < lam < 1 -> p <= 1 -> (0 < k)%nat -> interpolated lam p k <= 1.
Proof.
  intros lam p k L P K. unfold interpolated. assert (lam / INR k <= lam).
  { assert (1 <= INR k) by (replace 1 with (INR 1) by reflexivity; apply le_INR; lia). unfold Rdiv. rewrite <- (Rmult_1_r lam) at 2. apply Rmult_le_compat_l; [lra|].
    rewrite <- Rinv_1. apply Rinv_le_contravar; lra. }
  assert ((1 - lam) * p <= (1 - lam) * 1) by (apply Rmult_le_compat_l; lra). lra.
Qed.
Lemma interp_ge : forall lam p k, 0 < lam < 1 -> 0 <= p -> lam / INR k <= interpolated lam p k.
Proof. intros. unfold interpolated. assert (0 <= (1 - lam) * p) by (apply Rmult_le_pos; lra). lra. Qed.
Lemma exp_le1 : forall x, exp x <= 1 -> x <= 0.
Proof. intros x H. destruct (Rle_dec x 0); [auto|]. assert (exp 0 < exp x) by (apply exp_increasing; lra). rewrite exp_0 in *. lra. Qed.
Lemma le0_exp : forall x, x <= 0 -> exp x <= 1.
Proof. intros x H. destruct (Rle_lt_or_eq_dec _ _ H) as [L| ->]; [|rewrite exp_0; lra]. apply Rlt_le. rewrite <- exp_0. now apply exp_increasing. Qed.
Lemma ln_le0 : forall x, 0 < x -> x <= 1 -> ln x <= 0.
Proof. intros x X H. rewrite <- ln_1. destruct (Rle_lt_or_eq_dec _ _ H) as [L| ->]; [|lra]. apply Rlt_le, ln_increasing; auto. Qed.
Hypothesis TP : tables_proper M.
Lemma unsm_pts_le : forall s t, unsmoothed_logpts M s t <= 0.
Proof.
  intros. unfold unsmoothed_logpts, SMALL_LG_NUM. destruct (lexNumer M s t) as [a|] eqn:E; [|lra]. destruct (lexDenom M s) as [b|] eqn:F; [|lra].
  destruct TP as [T _]. specialize (T _ _ _ _ E F). lra.
Qed.
Lemma logpts_le : forall s t, logpts M s t <= 0.
Proof. intros. apply exp_le1. rewrite logpts_exp. destruct SM as (L & _ & V & _). apply interp_le1; auto. apply le0_exp, unsm_pts_le. Qed.
Lemma ratio_le : forall p sl i r, tableRatio M p sl i = Some r -> r <= 0.
Proof.
  intros p sl i r H. unfold tableRatio in H. destruct (aligNumer M p sl i) eqn:E; [|discriminate]. destruct (aligDenom M p sl) eqn:F; [|discriminate]. inversion H; subst.
  destruct TP as [_ T]. specialize (T _ _ _ _ _ E F). lra.
Qed.
Lemma unsm_a_le : forall prev slen i, (0 < slen)%nat -> unsmoothed_logaProb M prev slen i <= 0.
Proof.
  intros prev slen i S. unfold unsmoothed_logaProb. destruct (isValidAlig prev slen i); [|unfold SMALL_LG_NUM; lra]. destruct SM as (_ & _ & _ & Q).
  destruct (p0 M) as [p|].
  - destruct (isNullAlig prev slen i).
    + assert (ln p <= 0) by (apply ln_le0; lra). destruct (prev =? 0)%nat; [|auto]. assert (0 <= ln (INR slen)); [|lra].
      rewrite <- ln_1. assert (1 <= INR slen) by (replace 1 with (INR 1) by reflexivity; apply le_INR; lia). destruct (Rle_lt_or_eq_dec _ _ H0) as [L| <-]; [|lra]. apply Rlt_le, ln_increasing; lra.
    + destruct (tableRatio M _ slen i) as [r|] eqn:E; [|unfold SMALL_LG_NUM; lra]. apply ratio_le in E. assert (ln (1 - p) <= 0) by (apply ln_le0; lra). lra.
  - destruct (if isNullAlig prev slen i then _ else _) as [q i']. destruct (tableRatio M q slen i') as [r|] eqn:E; [|unfold SMALL_LG_NUM; lra]. eapply ratio_le; eauto.
Qed.
Lemma logaProb_le : forall prev slen i, (0 < slen)%nat -> logaProb M prev slen i <= 0.
Proof.
  intros prev slen i S. destruct (isValidAlig prev slen i) eqn:V.
  - apply exp_le1. rewrite logaProb_exp by auto. destruct SM as (_ & L & _ & _). apply interp_le1; auto. apply le0_exp, unsm_a_le; auto. unfold fan. destruct (prev =? 0)%nat; lia.
  - unfold logaProb. rewrite V. apply unsm_a_le; auto.
Qed.
End P.
Lemma srcLen_app : forall a b, getSrcLen (a ++ b) = (getSrcLen a + getSrcLen b)%nat.
Proof. intros. unfold getSrcLen. rewrite filter_app, app_length. reflexivity. Qed.
Lemma srcLen_null : forall k, getSrcLen (repeat NULL_WORD k) = 0%nat.
Proof. induction k; cbn; auto. Qed.
Lemma srcLen_ok : forall s, ~ In NULL_WORD s -> getSrcLen s = length s.
Proof.
  induction s as [|w s IH]; intros H; [reflexivity|]. change (w :: s) with ([w] ++ s). rewrite srcLen_app, IH by (intros I; apply H; right; auto). cbn [getSrcLen].
  unfold getSrcLen. cbn [filter]. destruct (N.eqb_spec w NULL_WORD) as [->|]; [exfalso; apply H; left; reflexivity|]. reflexivity.
Qed.
Lemma srcLen_extend : forall s, ~ In NULL_WORD s -> getSrcLen (extendWithNullWord s) = length s.
Proof. intros s H. unfold extendWithNullWord. rewrite srcLen_app, srcLen_ok, srcLen_null; auto. Qed.
Lemma extend_len : forall s, length (extendWithNullWord s) = (2 * length s)%nat.
Proof. intros. unfold extendWithNullWord. rewrite app_length, repeat_length. lia. Qed.
Lemma len_ok : forall l, sentenceLengthIsOk l = true <-> (1 <= length l <= 200)%nat.
Proof. intros. unfold sentenceLengthIsOk. rewrite andb_true_iff, negb_true_iff, Nat.eqb_neq, Nat.leb_le. lia. Qed.
Lemma in_paths : forall n m a, In a (paths n m) <-> length a = m /\ Forall (fun i => In i (seq 1 (2 * n))) a.
Proof. intros. apply seqs_in. Qed.
Section V.
Variable M : hmm.
Hypothesis SM : smoothing_ok M.
Hypothesis TP : tables_proper M.
Variables (s t : list N).
Hypothesis HN : ~ In NULL_WORD s.
Hypothesis Hs : (1 <= length s <= 200)%nat.
Hypothesis Ht : (1 <= length t <= 200)%nat.
Let n := length s.
Let ns := extendWithNullWord s.
Let la p i := logaProb M p n i.
Let lx i w := logpts M (nth (i - 1) ns NULL_WORD) w.
Let tr p i := exp (la p i).
Let em i w := exp (lx i w).
Let PP := path_prob tr em 0.
Lemma la_neg : forall p i, la p i <= 0.
Proof. intros. apply logaProb_le; auto. unfold n. lia. Qed.
Lemma lx_neg : forall i w, lx i w <= 0.
Proof. intros. apply logpts_le; auto. Qed.
Lemma plp_pp : forall a u, exp (plp la lx 0 a u) = path_prob tr em 0 a u.
Proof. intros. apply (plp_exp la lx). Qed.
Lemma plp_le : forall a b, plp la lx 0 a t <= plp la lx 0 b t <-> PP a t <= PP b t.
Proof.
  intros. unfold PP. rewrite <- !plp_pp. split; intros H.
  - destruct (Rle_lt_or_eq_dec _ _ H) as [L| ->]; [|lra]. apply Rlt_le, exp_increasing; auto.
  - destruct (Rle_dec (plp la lx 0 a t) (plp la lx 0 b t)); [auto|]. assert (exp (plp la lx 0 b t) < exp (plp la lx 0 a t)) by (apply exp_increasing; lra). lra.
Qed.
Lemma link_init : forall I J i j, ~ link (w_init I J) i j.
Proof. intros I J i j H. unfold link, AligSpec.inr in H. cbn in H. tauto. Qed.
Lemma cols_ok : exists c cols', pv_cols la lx (2 * n) [] t = c :: cols' /\ chain la lx (2 * n) t (c :: cols').
Proof.
  destruct t as [|w u] eqn:E; [cbn in Ht; lia|]. pose proof (pv_cols_chain la lx (2 * n) w u) as C.
  destruct (pv_cols la lx (2 * n) [] (w :: u)) as [|c cols']; [inversion C|]. eauto.
Qed.
Lemma best_unfold : forall slm, exists c cols' lp b,
  chain la lx (2 * n) t (c :: cols') /\
  (exists v l, c = v :: l /\ best_row l 2 (fst v, 1%nat) = (lp, b)) /\
  (forall a, back (c :: cols') b = Some a -> length a = length t -> 
    exists A, obtainBestAlignment M slm s t = Some (slm n (length t) + lp, A) /\ wI A = n /\ wJ A = length t /\
              forall i j, link A i j <-> exists k, nth_error a j = Some k /\ word_of n k = S i).
Proof.
  intros slm. destruct cols_ok as (c & cols' & E & C). pose proof (chain_hd_len _ _ _ _ _ _ C) as Lc.
  destruct c as [|v l]; [cbn in Lc; lia|]. destruct (best_row l 2 (fst v, 1%nat)) as [lp b] eqn:B.
  exists (v :: l), cols', lp, b. split; [exact C|]. split; [eauto|]. intros a Ha La.
  unfold obtainBestAlignment, obtainBestAlignmentCached. rewrite (proj2 (len_ok s)), (proj2 (len_ok t)) by auto. cbn [andb].
  rewrite srcLen_extend by auto. fold n ns.
  destruct (vit_cols_ok M n ns t [] [] (cache_ok_nil M)) as (c' & EV & _). rewrite EV.
  change (fun p i => logaProb M p n i) with la. change (fun i w => logpts M (nth (i - 1) ns NULL_WORD) w) with lx.
  replace (length ns) with (2 * n)%nat by (unfold ns; rewrite extend_len; reflexivity). rewrite E. unfold bestAlig. rewrite B, Ha. cbn [option_map].
  set (v' := map (fun i => if (n <? i)%nat then 0%nat else i) a).
  destruct (putAligVec_spec (w_init n (length t)) v') as (r & Er & [D1 D2] & K).
  { unfold v'. rewrite map_length. exact La. }
  { unfold v'. intros x X. apply in_map_iff in X as (y & <- & _). change (wI (w_init n (length t))) with n. destruct (Nat.ltb_spec n y); lia. }
  rewrite Er. exists r. split; [reflexivity|]. split; [exact D1|]. split; [exact D2|].
  intros i j. rewrite K. split.
  - intros [H|H]; [now apply link_init in H|]. unfold v' in H. rewrite nth_error_map in H. destruct (nth_error a j) as [k|]; [|discriminate]. exists k. split; [reflexivity|].
    cbn [option_map] in H. unfold word_of. destruct (Nat.leb_spec k n), (Nat.ltb_spec n k); try lia; congruence.
  - intros (k & H1 & H2). right. unfold v'. rewrite nth_error_map, H1. cbn [option_map]. f_equal. unfold word_of in H2. destruct (Nat.leb_spec k n), (Nat.ltb_spec n k); try lia; congruence.
Qed.
Lemma best_row_max : forall v l lp b, best_row l 2 (fst v, 1%nat) = (lp, b) ->
  exists k u, nth_error (v :: l) k = Some u /\ b = S k /\ lp = fst u /\ forall k' u', nth_error (v :: l) k' = Some u' -> fst u' <= lp.
Proof.
  intros v l lp b B. destruct (best_row_spec l 2 (fst v, 1%nat)) as (lp' & b' & E & H1 & H2 & H3). rewrite B in E. inversion E; subst lp' b'. cbn [fst snd] in *.
  destruct H3 as [[-> ->]|(k & u & U1 & U2 & U3)].
  - exists 0%nat, v. repeat split. intros [|k'] u' U; cbn in U; [inversion U; subst; lra|eauto].
  - exists (S k), u. repeat split; auto. intros [|k'] u' U; cbn in U; [inversion U; subst; lra|eauto].
Qed.
Lemma paths_split : forall b, In b (paths n (length t)) -> exists a k, b = a ++ [S k] /\ length (a ++ [S k]) = length t /\ Forall (fun i => In i (seq 1 (2 * n))) (a ++ [S k]) /\ (k < 2 * n)%nat.
Proof.
  intros b H. apply in_paths in H as [L F]. destruct (@exists_last _ b) as (a & y & ->); [intros ->; cbn in L; lia|].
  assert (Y : In y (seq 1 (2 * n))). { apply Forall_app in F as [_ F]. now inversion F. } apply in_seq in Y. destruct y as [|k]; [lia|]. exists a, k. repeat split; auto. lia.
Qed.
Lemma viterbi_best : forall slm, (length t = 1%nat \/ exists b, In b (paths n (length t)) /\ exp SMALL_LG_NUM < PP b t) ->
  exists a A, obtainBestAlignment M slm s t = Some (slm n (length t) + ln (PP a t), A) /\ best_path tr em n t a /\ wI A = n /\ wJ A = length t /\
    forall i j, link A i j <-> exists k, nth_error a j = Some k /\ word_of n k = S i.
Proof.
  intros slm HB. destruct (best_unfold slm) as (c & cols' & lp & b & C & (v & l & -> & B) & K).
  apply best_row_max in B as (k & u & U1 & -> & U2 & U3).
  assert (UB : forall b, In b (paths n (length t)) -> plp la lx 0 b t <= lp).
  { intros b Hb. destruct (paths_split b Hb) as (a & y & -> & L & F & Y).
    destruct (chain_upper la lx (2 * n) t _ C _ _ eq_refl a y L F Y) as (w & W1 & W2). apply U3 in W1. lra. }
  destruct (chain_attained la lx la_neg lx_neg (2 * n) t _ C _ _ eq_refl k u U1) as (a & A1 & A2 & A3 & A4).
  { destruct HB as [HB|(b & Hb1 & Hb2)]; [auto|]. left. rewrite <- U2. unfold PP in Hb2. rewrite <- plp_pp in Hb2. apply exp_lt_inv in Hb2. specialize (UB b Hb1). lra. }
  destruct (K _ A1 A2) as (A & E & D1 & D2 & Q).
  exists (a ++ [S k]), A. split.
  { unfold PP. rewrite <- plp_pp, ln_exp, A4, <- U2. exact E. }
  split; [|auto]. split; [apply in_paths; auto|]. intros b0 Hb. change (PP b0 t <= PP (a ++ [S k]) t). apply plp_le. rewrite A4, <- U2. auto.
Qed.
Lemma back_zeros : forall cols, cols <> [] -> back cols 0 = Some (repeat 0%nat (length cols)).
Proof.
  induction cols as [|c cols IH]; intros H; [congruence|]. destruct cols as [|d cols]; [reflexivity|]. rewrite back_cons, IH by discriminate. cbn [option_map length].
  f_equal. clear. generalize (S (length cols)). intros k. change (repeat 0%nat (S k)) with (repeat 0%nat 1 ++ repeat 0%nat k). rewrite <- repeat_app. rewrite Nat.add_comm, repeat_app. reflexivity.
Qed.
(** if every path has a probability below exp(-99999): the value is the floor and all words but the last are left unaligned *)
Lemma viterbi_underflow : forall slm, (2 <= length t)%nat -> (forall b, In b (paths n (length t)) -> PP b t <= exp SMALL_LG_NUM) ->
  exists A, obtainBestAlignment M slm s t = Some (slm n (length t) + SMALL_LG_NUM, A) /\ forall i j, link A i j <-> i = 0%nat /\ j = (length t - 1)%nat.
Proof.
  intros slm H2 HB. destruct (best_unfold slm) as (c & cols' & lp & b & C & (v & l & -> & B) & K).
  assert (ALL : forall k u, nth_error (v :: l) k = Some u -> fst u = SMALL_LG_NUM).
  { intros k u U. pose proof (chain_small la lx (2 * n) t _ C _ _ eq_refl ltac:(lia) k u U) as G.
    destruct (Rle_lt_or_eq_dec _ _ G) as [L|]; [|auto]. exfalso.
    destruct (chain_attained la lx la_neg lx_neg (2 * n) t _ C _ _ eq_refl k u U (or_introl L)) as (a & A1 & A2 & A3 & A4).
    specialize (HB (a ++ [S k])). unfold PP in HB. rewrite <- plp_pp, A4 in HB. assert (exp SMALL_LG_NUM < exp (fst u)) by (apply exp_increasing; auto).
    specialize (HB (proj2 (in_paths _ _ _) (conj A2 A3))). lra. }
  assert (BR : lp = SMALL_LG_NUM /\ b = 1%nat).
  { assert (V0 : fst v = SMALL_LG_NUM) by (apply (ALL 0%nat); reflexivity).
    assert (G : forall l i, (forall u, In u l -> fst u = SMALL_LG_NUM) -> best_row l i (SMALL_LG_NUM, 1%nat) = (SMALL_LG_NUM, 1%nat)).
    { induction l0 as [|x l0 IH]; intros i Hx; [reflexivity|]. cbn [best_row fst]. destruct (Rlt_dec SMALL_LG_NUM (fst x)) as [L|L]; [rewrite (Hx x (or_introl eq_refl)) in L; lra|]. apply IH. intros; apply Hx; right; auto. }
    rewrite V0, G in B; [inversion B; auto|]. intros u Hu. apply In_nth_error in Hu as (k & Hk). apply (ALL (S k)). exact Hk. }
  destruct BR as [-> ->].
  pose proof (chain_len _ _ _ _ _ C) as CL. destruct cols' as [|d cols']; [cbn in CL; lia|].
  assert (BK : back ((v :: l) :: d :: cols') 1 = Some (repeat 0%nat (length t - 1) ++ [1%nat])).
  { rewrite back_cons. cbn [nth_error option_map].
    rewrite (chain_small_pred la lx (2 * n) t _ C _ _ eq_refl ltac:(lia) 0 v eq_refl) by (rewrite (ALL 0%nat v eq_refl); lra).
    rewrite back_zeros by discriminate. cbn [option_map]. do 2 f_equal. cbn in CL |- *. f_equal. rewrite <- CL. reflexivity. }
  destruct (K _ BK) as (A & E & D1 & D2 & Q); [rewrite app_length, repeat_length; cbn; lia|].
  exists A. split; [exact E|]. intros i j. rewrite Q. split.
  - intros (k & K1 & K2). destruct (Nat.lt_ge_cases j (length t - 1)) as [L|L].
    + rewrite nth_error_app1 in K1 by (rewrite repeat_length; auto). apply nth_error_In, repeat_spec in K1. subst k. discriminate.
    + rewrite nth_error_app2, repeat_length in K1 by (rewrite repeat_length; auto). destruct (j - (length t - 1))%nat as [|x] eqn:X; [|destruct x; discriminate]. cbn in K1. inversion K1; subst k.
      unfold word_of in K2. destruct (Nat.leb_spec 1 n); [|unfold n in *; lia]. split; lia.
  - intros [-> ->]. exists 1%nat. split; [rewrite nth_error_app2, repeat_length by (rewrite repeat_length; auto); rewrite Nat.sub_diag; reflexivity|].
    unfold word_of. destruct (Nat.leb_spec 1 n); [reflexivity|unfold n in *; lia].
Qed.
(** the path that stays at the first word is never less likely than this *)
Lemma floor_path : exists b, In b (paths n (length t)) /\ (lsf M / INR (HmmModel.vocab M) * (asf M / INR (2 * n))) ^ length t <= PP b t.
Proof.
  exists (repeat 1%nat (length t)). split.
  { apply in_paths. split; [apply repeat_length|]. apply Forall_forall. intros x X. apply repeat_spec in X. subst. apply in_seq. unfold n. lia. }
  unfold PP. destruct SM as (L & A & V & _).
  assert (HE : forall i w, lsf M / INR (HmmModel.vocab M) <= em i w). { intros. unfold em, lx. rewrite logpts_exp by auto. apply interp_ge; [auto|]. apply Rlt_le, exp_pos. }
  assert (N0 : (0 < n)%nat) by (unfold n; lia).
  assert (HT : forall p, (p <= 1)%nat -> asf M / INR (2 * n) <= tr p 1).
  { intros p P. unfold tr, la. rewrite logaProb_exp; auto; [|unfold isValidAlig; destruct (Nat.leb_spec 1 n); [reflexivity|lia]].
    eapply Rle_trans; [|apply interp_ge; [auto|apply Rlt_le, exp_pos]]. unfold fan. destruct (p =? 0)%nat; [lra|].
    unfold Rdiv. apply Rmult_le_compat_l; [lra|]. apply Rinv_le_contravar; [apply lt_0_INR; lia|apply le_INR; lia]. }
  assert (P1 : 0 < lsf M / INR (HmmModel.vocab M)) by (apply Rdiv_lt_0_compat; [lra|apply lt_0_INR; lia]).
  assert (P2 : 0 < asf M / INR (2 * n)) by (apply Rdiv_lt_0_compat; [lra|apply lt_0_INR; lia]).
  clear Ht. assert (G : forall u p, (p <= 1)%nat -> (lsf M / INR (HmmModel.vocab M) * (asf M / INR (2 * n))) ^ length u <= path_prob tr em p (repeat 1%nat (length u)) u); [|apply G; lia].
  induction u as [|w u IH]; intros p P; cbn [length repeat path_prob pow]; [lra|]. apply Rmult_le_compat; [apply Rlt_le, Rmult_lt_0_compat; auto|apply Rlt_le, pow_lt, Rmult_lt_0_compat; auto| |apply IH; lia].
  rewrite Rmult_comm. apply Rmult_le_compat; try lra; auto.
Qed.
Lemma forward_is_total : forall slm, calcLgProb M slm s t = slm n (length t) + ln (total_prob tr em n t).
Proof.
  intros slm. unfold calcLgProb. rewrite (proj2 (len_ok s)), (proj2 (len_ok t)) by auto. cbn [andb]. f_equal. fold ns.
  assert (NE : (0 < length ns)%nat) by (unfold ns; rewrite extend_len; lia).
  pose proof (forward_total M n ns NE t) as F. rewrite <- (ln_exp (forwardAlgorithm M ns t)), F.
  - unfold total_prob, paths. replace (length ns) with (2 * n)%nat by (unfold ns; rewrite extend_len; reflexivity). reflexivity.
  - intros ->. cbn in Ht. lia.
  - unfold ns. rewrite srcLen_extend by auto. reflexivity.
Qed.
End V.
