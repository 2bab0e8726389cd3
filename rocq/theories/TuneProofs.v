From Coq Require Import Ascii String Reals ZArith QArith List Bool Arith Lia Lra.
From Verif Require Import TextSpec GfmtModel DecSpec DecModel FeatSpec FeatModel FeatProofs MathModel MathProofs LogNum DhsSpec DhsModel TrieModel TuneModel TuneSpec.
Import ListNotations.
Local Open Scope nat_scope.
(** ** scores of a sentence *)
Definition cums (f : lmf) (pre ws : list nat) : list Z := map (fun i => lm_after f [] (pre ++ firstn (S i) ws)) (seq 0 (length ws)).
Lemma lm_after_snoc f pre w : (lm_after f [] (pre ++ [w]) = lm_after f [] pre + l_w f * l_lp f (history (l_bos f) pre) w)%Z.
Proof. unfold lm_after. rewrite lm_score_app. change (history (l_bos f) []) with (l_bos f). cbn [lm_score]. lia. Qed.
Lemma sts_ok f : forall ws pre cum, let e := (lm_after f [] (pre ++ ws) + l_end f (history (l_bos f) (pre ++ ws)))%Z in
  sts_loop f ws (history (l_bos f) pre) (lm_after f [] pre) cum = (e, cum ++ cums f pre ws ++ [e]).
Proof.
  induction ws as [|w ws IH]; intros pre cum; cbn zeta.
  - rewrite app_nil_r. reflexivity.
  - cbn [sts_loop]. rewrite ngram_spec. cbn [lm_score history fold_left].
    replace (shift (history (l_bos f) pre) w) with (history (l_bos f) (pre ++ [w])) by (rewrite history_app; reflexivity).
    rewrite Z.add_0_r, <- lm_after_snoc. rewrite IH. replace (pre ++ w :: ws) with ((pre ++ [w]) ++ ws) by (rewrite <- app_assoc; reflexivity). f_equal.
    rewrite <- app_assoc. f_equal. unfold cums. cbn [length seq map]. rewrite <- seq_shift, map_map. cbn [app]. f_equal. f_equal.
    apply map_ext. intro i. f_equal. rewrite <- app_assoc. reflexivity.
Qed.
Lemma sts_total f ws : scoreTrgSentence f ws = ((lm_after f [] ws + l_end f (history (l_bos f) ws))%Z, cums f [] ws ++ [(lm_after f [] ws + l_end f (history (l_bos f) ws))%Z]).
Proof.
  unfold scoreTrgSentence. pose proof (sts_ok f ws [] []) as H. cbn zeta in H. cbn [app] in H. rewrite <- H. f_equal. unfold lm_after. cbn. lia.
Qed.
Lemma cums_len f pre ws : length (cums f pre ws) = length ws.
Proof. unfold cums. now rewrite map_length, seq_length. Qed.
Lemma cums_nth f ws i : i < length ws -> nth_error (cums f [] ws) i = Some (lm_after f [] (firstn (S i) ws)).
Proof. intro H. unfold cums. rewrite nth_error_map. replace (nth_error (seq 0 (length ws)) i) with (Some i); [reflexivity|].
  symmetry. rewrite (nth_error_nth' _ 0) by (now rewrite seq_length). now rewrite seq_nth. Qed.
(** ** the vector of the heuristic *)
Lemma merge_nil a : merge a [] = a.
Proof. destruct a; reflexivity. Qed.
Lemma merge_len : forall a b, length a = length b -> length (merge a b) = length b.
Proof. induction a as [|x a IH]; intros [|y b] H; cbn in *; try lia. f_equal. apply IH. lia. Qed.
Lemma merge_nth : forall a b i x y, nth_error a i = Some x -> nth_error b i = Some y -> nth_error (merge a b) i = Some (x + y)%Z.
Proof. induction a as [|u a IH]; intros [|v b] [|i] x y Ha Hb; cbn in *; try discriminate; [congruence|]. now apply IH. Qed.
Definition vec_at (fs : list lmf) (sent : list nat) (i : nat) : Z :=
  if i <? length sent then achieved fs sent (S i) else total fs (fun f => (lm_after f [] sent + l_end f (history (l_bos f) sent))%Z).
Lemma sts_vec f sent i : i <= length sent -> nth_error (snd (scoreTrgSentence f sent)) i = Some (vec_at [f] sent i).
Proof.
  intro H. rewrite sts_total. cbn [snd]. unfold vec_at. destruct (i <? length sent) eqn:L.
  - apply Nat.ltb_lt in L. rewrite nth_error_app1 by (rewrite cums_len; lia). rewrite cums_nth by lia. unfold achieved, total. cbn [fold_right]. now rewrite Z.add_0_r.
  - apply Nat.ltb_ge in L. rewrite nth_error_app2 by (rewrite cums_len; lia). rewrite cums_len. replace (i - length sent) with 0 by lia. cbn. now rewrite Z.add_0_r.
Qed.
Lemma sts_len f sent : length (snd (scoreTrgSentence f sent)) = S (length sent).
Proof. rewrite sts_total. cbn [snd]. rewrite app_length, cums_len. cbn. lia. Qed.
Lemma total_app a b v : total (a ++ b) v = (total a v + total b v)%Z.
Proof. induction a as [|f a IH]; [reflexivity|]. unfold total in *. cbn [app fold_right]. rewrite IH. lia. Qed.
Lemma total_minus fs u v : (total fs u - total fs v)%Z = total fs (fun f => (u f - v f)%Z).
Proof. induction fs as [|f fs IH]; [reflexivity|]. unfold total in *. cbn [fold_right]. lia. Qed.
Lemma total_ext fs u v : (forall f, In f fs -> u f = v f) -> total fs u = total fs v.
Proof. induction fs as [|f fs IH]; intro H; [reflexivity|]. unfold total in *. cbn [fold_right]. rewrite (H f) by (now left). rewrite IH; [reflexivity|]. intros. apply H. now right. Qed.
Lemma vec_app a b sent i : vec_at (a ++ b) sent i = (vec_at a sent i + vec_at b sent i)%Z.
Proof. unfold vec_at, achieved. destruct (i <? length sent); apply total_app. Qed.
Lemma heur_fold sent : forall fs acc done, length acc = S (length sent) -> (forall i, i <= length sent -> nth_error acc i = Some (vec_at done sent i)) ->
  let r := fold_left (fun a f => merge a (snd (scoreTrgSentence f sent))) fs acc in
  length r = S (length sent) /\ forall i, i <= length sent -> nth_error r i = Some (vec_at (done ++ fs) sent i).
Proof.
  induction fs as [|f fs IH]; intros acc dn L H; cbn zeta.
  - rewrite app_nil_r. split; assumption.
  - cbn [fold_left]. replace (dn ++ f :: fs) with ((dn ++ [f]) ++ fs) by (rewrite <- app_assoc; reflexivity). apply IH.
    + rewrite merge_len; rewrite sts_len; lia.
    + intros i Hi. rewrite vec_app. apply merge_nth; [now apply H|now apply sts_vec].
Qed.
Lemma heur_vec_ok fs sent : fs <> [] -> length (heur_vec fs sent) = S (length sent) /\ forall i, i <= length sent -> nth_error (heur_vec fs sent) i = Some (vec_at fs sent i).
Proof.
  intro N. destruct fs as [|f fs]; [congruence|]. unfold heur_vec. cbn [fold_left]. cbn [merge].
  change (f :: fs) with ([f] ++ fs). apply (heur_fold sent fs (snd (scoreTrgSentence f sent)) [f] (sts_len f sent)). intros i Hi. now apply sts_vec.
Qed.
Lemma last_nth {A} (l : list A) d n : length l = S n -> nth_error l n = Some (last l d).
Proof.
  revert n. induction l as [|a l IH]; intros n H; [discriminate|]. destruct l as [|b l]; [cbn in H; assert (n = 0) by lia; subst; reflexivity|].
  destruct n; [discriminate|]. cbn [nth_error]. change (last (a :: b :: l) d) with (last (b :: l) d). apply IH. cbn in *; lia.
Qed.
Lemma heur_value_ok fs sent len : fs <> [] -> len <= length sent -> heur_value (heur_vec fs sent) len = Some (remaining fs sent len).
Proof.
  intros N H. destruct (heur_vec_ok fs sent N) as [L V]. pose proof (last_nth _ 0%Z _ L) as LN. rewrite V in LN by lia. injection LN as LN.
  unfold heur_value. destruct (heur_vec fs sent) as [|x v] eqn:E; [discriminate|].
  assert (LV : last (x :: v) 0%Z = total fs (fun f => (lm_after f [] sent + l_end f (history (l_bos f) sent))%Z)) by (rewrite <- LN; unfold vec_at; now rewrite Nat.ltb_irrefl).
  destruct len as [|k].
  - rewrite LV. reflexivity.
  - rewrite (V k) by lia. rewrite LV. f_equal. unfold vec_at, achieved. replace (k <? length sent) with true by (symmetry; apply Nat.ltb_lt; lia).
    rewrite total_minus. unfold remaining. apply total_ext. intros f _. unfold lm_after. change (history (l_bos f) []) with (l_bos f).
    rewrite <- (firstn_skipn (S k) sent) at 1. rewrite lm_score_app. lia.
Qed.
(** ** best suffix *)
Lemma best_ok f sw st input : forall l best maxlp,
  (best_loop f sw st input l best maxlp = best /\ forall n s, In (n, s) l -> (l_lp f st (sw (input ++ s)) <= maxlp)%Z) \/
  (exists a n s b, l = a ++ (n, s) :: b /\ best_loop f sw st input l best maxlp = (n, s) /\ (maxlp < l_lp f st (sw (input ++ s)))%Z /\
     (forall m t, In (m, t) a -> (l_lp f st (sw (input ++ t)) < l_lp f st (sw (input ++ s)))%Z) /\ (forall m t, In (m, t) b -> (l_lp f st (sw (input ++ t)) <= l_lp f st (sw (input ++ s)))%Z)).
Proof.
  induction l as [|[n s] l IH]; intros best maxlp; [left; split; [reflexivity|intros ? ? []]|]. cbn [best_loop].
  destruct (maxlp <? l_lp f st (sw (input ++ s)))%Z eqn:C.
  - apply Z.ltb_lt in C. right. destruct (IH (n, s) (l_lp f st (sw (input ++ s)))) as [[E H]|(a & n' & s' & b & E & R & M & A & B)].
    + exists [], n, s, l. rewrite E. split; [reflexivity|]. split; [reflexivity|]. split; [exact C|]. split; [intros ? ? []|exact H].
    + exists ((n, s) :: a), n', s', b. rewrite E. split; [reflexivity|]. split; [rewrite <- E; exact R|]. split; [lia|]. split; [|exact B].
      intros m t [H|H]; [injection H as <- <-; exact M|now apply (A m)].
  - apply Z.ltb_ge in C. destruct (IH best maxlp) as [[E H]|(a & n' & s' & b & E & R & M & A & B)].
    + left. split; [exact E|]. intros m t [K|K]; [injection K as <- <-; exact C|now apply (H m)].
    + right. exists ((n, s) :: a), n', s', b. rewrite E. split; [reflexivity|]. split; [rewrite <- E; exact R|]. split; [exact M|]. split; [|exact B].
      intros m t [K|K]; [injection K as <- <-; lia|now apply (A m)].
Qed.
Lemma hist_fold sw : forall (hist : list str) st, fold_left (fun st h => addNextWordToState (sw h) st) hist st = history st (map sw hist).
Proof. induction hist as [|h hist IH]; intro st; [reflexivity|]. cbn [fold_left map history]. rewrite IH. reflexivity. Qed.

(** ** interpolation *)
Section Interp.
Local Open Scope R_scope.
Lemma exp_small : exp FEAT_LGPROB_SMOOTH <= PHRASE_PROB_SMOOTH.
Proof.
  unfold FEAT_LGPROB_SMOOTH, PHRASE_PROB_SMOOTH. rewrite exp_Ropp.
  assert (H : 10000000000 <= exp 9999999).
  { replace 9999999 with (4999999.5 + 4999999.5) by lra. rewrite exp_plus. assert (K : 1 + 4999999.5 < exp 4999999.5) by (apply exp_ineq1; lra).
    apply Rle_trans with ((1 + 4999999.5) * (1 + 4999999.5)); [lra|]. apply Rmult_le_compat; lra. }
  apply Rinv_le_contravar; [lra|exact H].
Qed.
Lemma lgln_pos p : 0 < p -> lgln p = Fin (ln p).
Proof. intro H. unfold lgln. destruct (Rlt_dec 0 p); [reflexivity|lra]. Qed.
Lemma lgln_zero : lgln 0 = LZ.
Proof. unfold lgln. destruct (Rlt_dec 0 0); [lra|]. destruct (Rlt_dec 0 0); [lra|reflexivity]. Qed.
Lemma lgln_neg p : p < 0 -> lgln p = NaN.
Proof. intro H. unfold lgln. destruct (Rlt_dec 0 p); [lra|]. destruct (Rlt_dec p 0); [reflexivity|lra]. Qed.
(** adding (1-lambda)q to the log of a positive number *)
Lemma add_part a lambda q : lambda < 1 -> 0 <= q -> exists s, lgsumlog (Fin a) (lgadd (lgln (1 - lambda)) (lgln q)) = Fin s /\ exp s = exp a + (1 - lambda) * q.
Proof.
  intros L Q. rewrite (lgln_pos (1 - lambda)) by lra. destruct (Rle_lt_or_eq_dec 0 q Q) as [P|E].
  - rewrite (lgln_pos q P). cbn [lgadd lgsumlog]. eexists. split; [reflexivity|]. rewrite sumlog_ok, exp_ln by (apply Rplus_lt_0_compat; apply exp_pos). rewrite exp_plus, !exp_ln by lra. reflexivity.
  - subst q. rewrite lgln_zero. cbn. exists a. split; [reflexivity|lra].
Qed.
Lemma interp_main lambda p q : 0 < lambda < 1 -> PHRASE_PROB_SMOOTH < lambda * p -> 0 <= p -> 0 <= q -> exists s, interpScore lambda (lgln p) (lgln q) = Fin s /\ exp s = lambda * p + (1 - lambda) * q.
Proof.
  intros L H P Q. assert (S0 : 0 < PHRASE_PROB_SMOOTH) by (unfold PHRASE_PROB_SMOOTH; lra). assert (PP : 0 < p) by (destruct (Rle_lt_or_eq_dec 0 p P); [assumption|subst; lra]).
  unfold interpScore. destruct (Req_EM_T lambda 1); [lra|]. rewrite (lgln_pos lambda), (lgln_pos p) by lra. cbn [lgadd lgleb].
  rewrite <- ln_mult by lra. destruct (Rle_dec (ln (lambda * p)) (ln PHRASE_PROB_SMOOTH)) as [C|C].
  - exfalso. assert (ln PHRASE_PROB_SMOOTH < ln (lambda * p)) by (apply ln_increasing; lra). lra.
  - destruct (add_part (ln (lambda * p)) lambda q) as [s [E1 E2]]; [lra..|]. exists s. split; [exact E1|]. rewrite E2, exp_ln by lra. reflexivity.
Qed.
Lemma interp_smooth lambda p q : 0 <= lambda < 1 -> lambda * p <= PHRASE_PROB_SMOOTH -> 0 <= p -> 0 <= q -> exists s, interpScore lambda (lgln p) (lgln q) = Fin s /\ exp s = exp FEAT_LGPROB_SMOOTH + (1 - lambda) * q.
Proof.
  intros L H P Q. unfold interpScore. destruct (Req_EM_T lambda 1); [lra|].
  assert (C : lgleb (lgadd (lgln lambda) (lgln p)) (Fin (ln PHRASE_PROB_SMOOTH)) = true).
  { destruct (Rle_lt_or_eq_dec 0 lambda (proj1 L)) as [L0|E0]; destruct (Rle_lt_or_eq_dec 0 p P) as [P0|E1].
    - rewrite (lgln_pos lambda), (lgln_pos p) by lra. cbn [lgadd lgleb]. rewrite <- ln_mult by lra.
      destruct (Rle_dec (ln (lambda * p)) (ln PHRASE_PROB_SMOOTH)) as [K|K]; [reflexivity|]. exfalso. apply K.
      assert (0 < lambda * p) by (now apply Rmult_lt_0_compat). destruct (Rle_lt_or_eq_dec _ _ H) as [A|A]; [left; now apply ln_increasing|right; now rewrite A].
    - rewrite <- E1, lgln_zero, (lgln_pos lambda L0). reflexivity.
    - rewrite <- E0, lgln_zero, (lgln_pos p P0). reflexivity.
    - rewrite <- E0, <- E1, lgln_zero. reflexivity. }
  rewrite C. apply add_part; lra.
Qed.
End Interp.
(** ** perplexity *)
Lemma qsum_cons x l : qsum (x :: l) = (x + qsum l)%Q.
Proof. reflexivity. Qed.
Lemma ll_inner {P} (h : P -> Q) : forall l a, (fold_left (fun a p => (a + h p)%Q) l a == a + qsum (map h l))%Q.
Proof. induction l as [|x l IH]; intro a; cbn [fold_left map]; [unfold qsum; cbn [fold_right]; ring|]. rewrite IH, qsum_cons. ring. Qed.
Lemma qsum_app a b : (qsum (a ++ b) == qsum a + qsum b)%Q.
Proof. induction a as [|x a IH]; cbn [app]; [unfold qsum at 2; cbn [fold_right]; ring|]. rewrite !qsum_cons, IH. ring. Qed.
Lemma ll_outer {P} (h : P -> Q) : forall pairs a, (fold_left (fun a l => fold_left (fun a p => (a + h p)%Q) l a) pairs a == a + qsum (map h (concat pairs)))%Q.
Proof.
  induction pairs as [|l r IH]; intro a; cbn [fold_left concat]; [unfold qsum; cbn [map fold_right]; ring|]. rewrite IH, ll_inner, map_app, qsum_app. ring.
Qed.
Lemma len_outer {P} : forall (pairs : list (list P)) n, fold_left (fun n l => n + length l) pairs n = n + length (concat pairs).
Proof. induction pairs as [|l r IH]; intro n; cbn [fold_left concat length]; [lia|]. rewrite IH, app_length. lia. Qed.
(** ** tuning *)
Definition obj (perp : point -> option Q) (x : point) : Q := match dhs_eval perp x with Some v => written v | None => 0%Q end.
Lemma tune_sound tl perp init : forall fuel im xs r, follows tl (obj perp) im xs -> tune_loop fuel tl perp init im = Some r ->
  (exists im' xs' x y ok, follows tl (obj perp) im' xs' /\ tl im' = Result x y ok /\ r = (if ok then (true, x) else (false, init)) /\ length xs <= length xs') \/
  (exists im' xs' x, follows tl (obj perp) im' xs' /\ tl im' = Evaluate x /\ dhs_eval perp x = None /\ r = (false, init)).
Proof.
  induction fuel as [|fuel IH]; intros im xs r F E; [discriminate|]. cbn [tune_loop] in E. destruct (tl im) as [x|x y ok] eqn:T.
  - destruct (dhs_eval perp x) as [v|] eqn:D.
    + assert (F' : follows tl (obj perp) (im ++ [written v]) (xs ++ [x])) by (replace (written v) with (obj perp x) by (unfold obj; now rewrite D); now constructor).
      destruct (IH _ _ _ F' E) as [(im' & xs' & x' & y & ok & A & B & C & G)|H]; [left|right; exact H]. exists im', xs', x', y, ok. rewrite app_length in G. auto with zarith.
    + right. exists im, xs, x. injection E as <-. auto.
  - left. exists im, xs, x, y, ok. destruct ok; injection E as <-; auto.
Qed.
Lemma tune_ends tl perp init bound : (forall im xs, follows tl (obj perp) im xs -> length xs <= bound) -> forall fuel im xs, follows tl (obj perp) im xs -> bound < fuel + length xs ->
  exists r, tune_loop fuel tl perp init im = Some r.
Proof.
  intros B. induction fuel as [|fuel IH]; intros im xs F L; [specialize (B _ _ F); lia|]. cbn [tune_loop].
  destruct (tl im) as [x|x y [|]] eqn:T; [|eauto..]. destruct (dhs_eval perp x) as [v|] eqn:D; [|eauto].
  apply (IH _ (xs ++ [x])); [|rewrite app_length; cbn; lia]. replace (written v) with (obj perp x) by (unfold obj; now rewrite D). now constructor.
Qed.
