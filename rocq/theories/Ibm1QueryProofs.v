From Coq Require Import Reals NArith Arith List Bool Lra Lia.
From Verif Require Import AMap MathModel LogNum LogNumProofs RSums Ibm1Spec AligSpec AligModel AligProofs Ibm1Model.
Import ListNotations.
Open Scope R_scope.
Lemma pts_nonneg : forall T s t, 0 <= pts T s t.
Proof. intros. apply lgexp_nonneg. Qed.
Lemma loga_ok : forall l m, logaProbIbm1 l m = ln (/ INR (S l) ^ m).
Proof.
  intros l m. unfold logaProbIbm1.
  assert (P : 0 < INR (S l)) by (apply lt_0_INR; lia).
  assert (G : forall k n a, fold_left (fun a _ => a - ln (INR l + 1)) (seq k n) a = a - INR n * ln (INR (S l))).
  { intros k n. revert k. induction n as [|n IH]; intros k a; cbn [seq fold_left]; [cbn; lra|]. rewrite IH, (S_INR n), (S_INR l). ring. }
  rewrite G, ln_Rinv by (apply pow_lt, P). rewrite ln_pow by exact P. ring.
Qed.
Lemma fold_sum : forall {A} (f : A -> R) l a, fold_left (fun s x => s + f x) l a = a + sumf f l.
Proof. induction l as [|x l IH]; intros a; cbn; [lra|]. rewrite IH. lra. Qed.
Lemma lgadd_lgln : forall p q, 0 <= p -> 0 <= q -> lgadd (lgln p) (lgln q) = lgln (p * q).
Proof.
  intros p q Hp Hq. apply lgexp_inj.
  - apply lgadd_fin; apply lgln_not_nan; auto.
  - apply lgln_not_nan. apply Rmult_le_pos; auto.
  - destruct (lgadd_fin (lgln p) (lgln q)) as [E _]; [apply lgln_not_nan; auto..|]. rewrite E, !lgexp_ln; auto. apply Rmult_le_pos; auto.
Qed.
Lemma fold_lg : forall {A} (f : A -> R) l p, 0 <= p -> (forall x, In x l -> 0 <= f x) ->
  fold_left (fun a x => lgadd a (lgln (f x))) l (lgln p) = lgln (p * prodf f l).
Proof.
  induction l as [|x l IH]; intros p Hp H; cbn [fold_left prodf]; [f_equal; lra|].
  rewrite lgadd_lgln; [|exact Hp|apply H; cbn; auto]. rewrite IH; [f_equal; ring| |].
  - apply Rmult_le_pos; [exact Hp|apply H; cbn; auto].
  - intros y Hy. apply H. cbn. auto.
Qed.
Lemma fin_lgln : forall x, Fin x = lgln (exp x).
Proof. intros x. rewrite lgln_pos by apply exp_pos. now rewrite ln_exp. Qed.
Lemma total_prod : forall p ns t, ns <> [] -> total p ns t = / INR (length ns) ^ length t * prodf (fun w => sumf (fun x => p x w) ns) t.
Proof.
  intros p ns t Hn. unfold total, joint, alignments. rewrite sumf_scal. f_equal. unfold lex_prob.
  replace (S (pred (length ns))) with (length ns) by (destruct ns; [congruence|reflexivity]).
  rewrite (sum_prod (fun i w => p (nth i ns 0%N) w)). apply prodf_ext. intros w _.
  assert (G : forall l, sumf (fun x => p x w) l = sumf (fun i => p (nth i l 0%N) w) (seq 0 (length l))).
  { induction l as [|x l IH]; [reflexivity|]. cbn [length seq sumf]. rewrite <- seq_shift, sumf_map. cbn [nth]. rewrite IH. reflexivity. }
  rewrite (G ns). reflexivity.
Qed.
Lemma exp_loga : forall l m x, exp (logaProbIbm1 l m + x) = exp x * / INR (S l) ^ m.
Proof.
  intros. rewrite loga_ok, exp_plus, exp_ln by (apply Rinv_0_lt_compat, pow_lt, lt_0_INR; lia). ring.
Qed.
Theorem calcLgProb_ok : forall T slm s t, sentenceLengthIsOk s = true -> sentenceLengthIsOk t = true ->
  calcLgProb T slm s t = lgln (exp (slm (length s) (length t)) * total (pts T) (with_null s) t).
Proof.
  intros T slm s t Hs Ht. unfold calcLgProb. rewrite Hs, Ht. cbn [andb]. unfold calcSumIBM1LgProb. cbn [addNullWord length pred].
  set (ns := addNullWord s).
  assert (E : fold_left (fun a w => lgadd a (lgln (fold_left (fun sm x => sm + pts T x w) ns 0))) t (Fin 0)
              = lgln (1 * prodf (fun w => sumf (fun x => pts T x w) ns) t)).
  { rewrite (fin_lgln 0), exp_0. rewrite <- fold_lg; [|lra|intros; apply sumf_nonneg; intros; apply pts_nonneg].
    generalize (lgln 1). induction t as [|w t' IH]; intros a; [reflexivity|]. cbn [fold_left].
    rewrite fold_sum. rewrite Rplus_0_l.
    clear Ht. assert (G : forall l b, fold_left (fun a w => lgadd a (lgln (fold_left (fun sm x => sm + pts T x w) ns 0))) l b = fold_left (fun a x => lgadd a (lgln (sumf (fun x0 => pts T x0 x) ns))) l b).
    { induction l as [|y l IHl]; intros b; [reflexivity|]. cbn [fold_left]. rewrite IHl, fold_sum, Rplus_0_l. reflexivity. }
    apply G. }
  rewrite E, fin_lgln, lgadd_lgln; [|left; apply exp_pos|rewrite Rmult_1_l; apply prodf_nonneg; intros; apply sumf_nonneg; intros; apply pts_nonneg].
  f_equal. rewrite exp_loga, total_prod by discriminate. change (length (with_null s)) with (S (length s)). change (with_null s) with ns. ring.
Qed.
(** ---- best alignment *)
Section BEST.
Variable T : lextabR.
Variable ns : list N.
Let P (i : nat) (w : N) : R := pts T (nth i ns 0%N) w.
Definition best_step (w : N) (acc : lg * nat) (i : nat) : lg * nat :=
  let lp := lgln (pts T (nth i ns 0%N) w) in if lgleb (fst acc) lp then (lp, i) else acc.
(** invariant: either nothing passed yet, or the pair is the maximum of what was seen, at least exp(-FLT_MAX) *)
Lemma best_loop : forall w l bi0 seen acc,
  (forall i, In i seen -> match fst acc with Fin m => P i w <= exp m | _ => False end) ->
  (match fst acc with Fin m => (m = - FLT_MAX /\ snd acc = bi0 /\ (forall i, In i seen -> P i w < exp m)) \/ (exp m = P (snd acc) w /\ - FLT_MAX <= m /\ In (snd acc) seen) | _ => False end) ->
  let r := fold_left (best_step w) l acc in
  exists m, fst r = Fin m /\ (forall i, In i (seen ++ l) -> P i w <= exp m) /\
    ((m = - FLT_MAX /\ snd r = bi0 /\ forall i, In i (seen ++ l) -> P i w < exp m) \/ (exp m = P (snd r) w /\ - FLT_MAX <= m /\ In (snd r) (seen ++ l))).
Proof.
  intros w. induction l as [|i l IH]; intros bi0 seen [m0 b] H1 H2; cbn [fold_left].
  - cbn in *. rewrite app_nil_r. destruct m0 as [| |m]; try tauto. exists m. auto.
  - replace (seen ++ i :: l) with ((seen ++ [i]) ++ l) by (rewrite <- app_assoc; reflexivity).
    cbn [fst snd] in *. destruct m0 as [| |m]; try tauto.
    assert (EB : best_step w (Fin m, b) i = let lp := lgln (pts T (nth i ns 0%N) w) in if lgleb (Fin m) lp then (lp, i) else (Fin m, b)) by reflexivity.
    cbv zeta in EB |- *. unfold lgln in EB. destruct (Rlt_dec 0 (pts T (nth i ns 0%N) w)) as [Q|Q].
    + cbn [lgleb] in EB. destruct (Rle_dec m (ln (pts T (nth i ns 0%N) w))) as [L|L]; rewrite EB.
      * assert (Ee : exp (ln (pts T (nth i ns 0%N) w)) = P i w) by (apply exp_ln, Q).
        assert (Le : exp m <= P i w).
        { rewrite <- Ee. destruct L as [L|L]; [left; now apply exp_increasing|right; now rewrite <- L]. }
        apply IH; cbn [fst snd].
        -- intros k Hk. rewrite in_app_iff in Hk. rewrite Ee. destruct Hk as [Hk|[<-|[]]]; [|lra]. specialize (H1 k Hk). lra.
        -- right. split; [exact Ee|]. split; [|rewrite in_app_iff; cbn; auto]. destruct H2 as [(A & _)|(_ & A & _)]; lra.
      * assert (Lt : P i w < exp m).
        { assert (Ee : exp (ln (pts T (nth i ns 0%N) w)) = P i w) by (apply exp_ln, Q). rewrite <- Ee. apply exp_increasing. lra. }
        apply IH; cbn [fst snd].
        -- intros k Hk. rewrite in_app_iff in Hk. destruct Hk as [Hk|[<-|[]]]; [now apply H1|lra].
        -- destruct H2 as [(A & B & C)|(A & B & C)]; [left|right].
           ++ split; [exact A|]. split; [exact B|]. intros k Hk. rewrite in_app_iff in Hk. destruct Hk as [Hk|[<-|[]]]; [now apply C|lra].
           ++ split; [exact A|]. split; [exact B|]. rewrite in_app_iff. auto.
    + assert (Z : P i w = 0) by (pose proof (pts_nonneg T (nth i ns 0%N) w); unfold P; lra). pose proof (exp_pos m) as Pm.
      assert (Em : lgleb (Fin m) (if Rlt_dec (pts T (nth i ns 0%N) w) 0 then NaN else LZ) = false) by (destruct (Rlt_dec (pts T (nth i ns 0%N) w) 0); reflexivity).
      rewrite Em in EB. rewrite EB. apply IH; cbn [fst snd].
      * intros k Hk. rewrite in_app_iff in Hk. destruct Hk as [Hk|[<-|[]]]; [now apply H1|lra].
      * destruct H2 as [(A & B & C)|(A & B & C)]; [left|right].
        -- split; [exact A|]. split; [exact B|]. intros k Hk. rewrite in_app_iff in Hk. destruct Hk as [Hk|[<-|[]]]; [now apply C|lra].
        -- split; [exact A|]. split; [exact B|]. rewrite in_app_iff. auto.
Qed.
Lemma best_inner_ok : forall w bi0, exists m bi, best_inner T ns w bi0 = (Fin m, bi) /\
  ((m = - FLT_MAX /\ bi = bi0 /\ forall i, (i < length ns)%nat -> P i w < exp (- FLT_MAX)) \/
   (exp m = P bi w /\ (bi < length ns)%nat /\ forall i, (i < length ns)%nat -> P i w <= P bi w)).
Proof.
  intros w bi0. destruct (best_loop w (seq 0 (length ns)) bi0 [] (Fin (- FLT_MAX), bi0)) as (m & E1 & E2 & E3).
  - cbn. tauto.
  - cbn. left. split; [reflexivity|]. split; [reflexivity|tauto].
  - cbn [app] in *. exists m, (snd (fold_left (best_step w) (seq 0 (length ns)) (Fin (- FLT_MAX), bi0))). split.
    + unfold best_inner. change (fold_left (best_step w) (seq 0 (length ns)) (Fin (- FLT_MAX), bi0) = (Fin m, snd (fold_left (best_step w) (seq 0 (length ns)) (Fin (- FLT_MAX), bi0)))).
      rewrite <- E1. apply surjective_pairing.
    + destruct E3 as [(A & B & C)|(A & _ & C)]; [left|right].
      * split; [exact A|]. split; [exact B|]. intros i Hi. rewrite <- A. apply C, in_seq. lia.
      * apply in_seq in C. split; [exact A|]. split; [lia|]. intros i Hi. rewrite <- A. apply E2, in_seq. lia.
Qed.
End BEST.
Definition step_word (T : lextabR) (ns : list N) (acc : lg * nat * list nat) (t : N) : lg * nat * list nat :=
  let '(lp, bi, al) := acc in let '(m, bi') := best_inner T ns t bi in (lgadd lp m, bi', al ++ [bi']).
(** every target word has a translation of positive (double) probability *)
Definition translatable (T : lextabR) (ns t : list N) : Prop := forall w, In w t -> exists x, In x ns /\ exp (- FLT_MAX) <= pts T x w.
Lemma lex_best : forall T ns ts p bi al, ns <> [] -> 0 < p -> translatable T ns ts ->
  exists a bi', fold_left (step_word T ns) ts (Fin (ln p), bi, al) = (Fin (ln (p * lex_prob (pts T) ns ts a)), bi', al ++ a) /\
    length a = length ts /\ Forall (fun i => In i (seq 0 (length ns))) a /\ 0 < lex_prob (pts T) ns ts a /\
    forall a', length a' = length ts -> Forall (fun i => In i (seq 0 (length ns))) a' -> lex_prob (pts T) ns ts a' <= lex_prob (pts T) ns ts a.
Proof.
  intros T ns ts. induction ts as [|w ts IH]; intros p bi al Hn Hp Ht.
  - exists [], bi. cbn. rewrite app_nil_r. split; [f_equal; f_equal; f_equal; f_equal; lra|]. split; [reflexivity|]. split; [constructor|]. split; [lra|].
    intros a' L _. destruct a'; [cbn; lra|discriminate].
  - cbn [fold_left]. destruct (best_inner_ok T ns w bi) as (m & b & E & H).
    assert (Hb : exp m = pts T (nth b ns 0%N) w /\ (b < length ns)%nat /\ forall i, (i < length ns)%nat -> pts T (nth i ns 0%N) w <= pts T (nth b ns 0%N) w).
    { destruct H as [(A & B & C)|H]; [|exact H]. exfalso. destruct (Ht w (or_introl eq_refl)) as (x & Hx & Hp1). apply In_nth with (d := 0%N) in Hx. destruct Hx as (i & Hi & Ex).
      specialize (C i Hi). rewrite Ex in C. lra. }
    destruct Hb as (Em & Lb & Mb). pose proof (exp_pos m) as Pm.
    unfold step_word at 2. rewrite E. cbn [lgadd].
    assert (Es : ln p + m = ln (p * pts T (nth b ns 0%N) w)).
    { rewrite <- Em, ln_mult, ln_exp by lra. reflexivity. }
    rewrite Es. destruct (IH (p * pts T (nth b ns 0%N) w) b (al ++ [b]) Hn) as (a & bi' & F & La & Fa & Pa & Ma).
    + apply Rmult_lt_0_compat; [exact Hp|rewrite <- Em; exact Pm].
    + intros w' Hw'. apply Ht. cbn. auto.
    + exists (b :: a), bi'. rewrite F. split; [f_equal; [f_equal; f_equal; f_equal; unfold lex_prob; cbn [combine prodf fst snd]; ring|rewrite <- app_assoc; reflexivity]|].
      split; [cbn; lia|]. split; [constructor; [apply in_seq; lia|exact Fa]|].
      split; [unfold lex_prob in *; cbn [combine prodf fst snd]; apply Rmult_lt_0_compat; [rewrite <- Em; exact Pm|exact Pa]|].
      intros a' L' F'. destruct a' as [|i a']; [discriminate|]. inversion F'; subst. apply in_seq in H2. unfold lex_prob in *. cbn [combine prodf fst snd].
      apply Rmult_le_compat; [apply pts_nonneg|apply prodf_nonneg; intros; apply pts_nonneg|apply Mb; lia|apply Ma; [cbn in L'; lia|assumption]].
Qed.
Theorem best_ok : forall T slm s t, sentenceLengthIsOk s = true -> sentenceLengthIsOk t = true -> translatable T (with_null s) t ->
  exists v M a, obtainBestAlignment T slm s t = Some (Fin v, M) /\ In a (alignments (length s) (length t)) /\
    same_dims M (w_init (length s) (length t)) /\ (forall i j, link M i j <-> nth_error a j = Some (S i)) /\
    v = slm (length s) (length t) + ln (joint (pts T) (with_null s) t a) /\ 0 < joint (pts T) (with_null s) t a /\
    (forall a', In a' (alignments (length s) (length t)) -> joint (pts T) (with_null s) t a' <= joint (pts T) (with_null s) t a).
Proof.
  intros T slm s t Hs Ht Hx. unfold obtainBestAlignment. rewrite Hs, Ht. cbn [andb]. unfold lexM1LpForBestAlig.
  change (fun acc t0 => let '(lp, bi, al) := acc in let '(m, bi') := best_inner T (addNullWord s) t0 bi in (lgadd lp m, bi', al ++ [bi'])) with (step_word T (addNullWord s)).
  destruct (lex_best T (addNullWord s) t 1 0%nat [] ltac:(discriminate) ltac:(lra) Hx) as (a & bi' & F & La & Fa & Pa & Ma).
  rewrite ln_1 in F. rewrite F. cbn [fst snd app]. rewrite Rmult_1_l.
  destruct (putAligVec_spec (w_init (length s) (length t)) a) as (M & E & D & K).
  - exact La.
  - intros i Hi. rewrite Forall_forall in Fa. specialize (Fa i Hi). apply in_seq in Fa. cbn in *. lia.
  - rewrite E. cbn [lgadd]. assert (Hj : 0 < / INR (S (length s)) ^ length t) by (apply Rinv_0_lt_compat, pow_lt, lt_0_INR; lia).
    eexists _, M, a. split; [reflexivity|]. split; [apply seqs_in; split; [exact La|exact Fa]|]. split; [exact D|]. split.
    + intros i j. rewrite K. split; [intros [L|L]; [|exact L]|auto]. exfalso. destruct L as [_ L]. cbn in L. now apply L.
    + unfold joint. change (length (with_null s)) with (S (length s)). split; [rewrite ln_mult by assumption; rewrite loga_ok; change (with_null s) with (addNullWord s); ring|].
      split; [apply Rmult_lt_0_compat; assumption|]. intros a' Ha'. apply seqs_in in Ha'. apply Rmult_le_compat_l; [lra|]. apply Ma; apply Ha'.
Qed.
(** a target word no source word translates into is aligned with the source word of the target word before it *)
Theorem untranslatable_copies : forall T s w1 w2, sentenceLengthIsOk s = true -> translatable T (with_null s) [w1] ->
  (forall x, In x (with_null s) -> pts T x w2 = 0) -> exists i m, lexM1LpForBestAlig T (addNullWord s) [w1; w2] = (Fin (m - FLT_MAX), [i; i]) /\ lexM1LpForBestAlig T (addNullWord s) [w2] = (Fin (- FLT_MAX), [0%nat]).
Proof.
  intros T s w1 w2 Hs Ht Hz. unfold lexM1LpForBestAlig. cbn [fold_left].
  destruct (best_inner_ok T (addNullWord s) w1 0%nat) as (m & b & E & _). rewrite E. cbn [lgadd].
  assert (G : forall bi, best_inner T (addNullWord s) w2 bi = (Fin (- FLT_MAX), bi)).
  { intros bi. destruct (best_inner_ok T (addNullWord s) w2 bi) as (m2 & b2 & E2 & [(A & B & _)|(A & B & _)]); [rewrite E2, A, B; reflexivity|]. exfalso.
    rewrite (Hz (nth b2 (addNullWord s) 0%N)) in A; [pose proof (exp_pos m2); lra|]. apply nth_In. exact B. }
  rewrite !G. cbn. exists b, m. rewrite Rplus_0_l. split; [reflexivity|]. repeat f_equal. lra.
Qed.
(** ---- score of a given alignment *)
Lemma incr_ok : forall T slm s t al, length al = length t ->
  incrIBM1LgProb T slm (addNullWord s) t al = lgln (exp (slm (length s) (length t)) * joint (pts T) (with_null s) t al).
Proof.
  intros T slm s t al L. unfold incrIBM1LgProb. cbn [addNullWord length pred]. rewrite fin_lgln, exp_loga.
  rewrite (fold_lg (fun q => pts T (nth (fst q) (addNullWord s) 0%N) (snd q))).
  - f_equal. unfold joint, lex_prob. change (length (with_null s)) with (S (length s)). change (with_null s) with (addNullWord s). ring.
  - apply Rmult_le_pos; [left; apply exp_pos|]. left. apply Rinv_0_lt_compat, pow_lt, lt_0_INR. lia.
  - intros. apply pts_nonneg.
Qed.
Theorem score_alig : forall T slm s t M al, getAligVec M = Some al -> length al = length t ->
  calcLgProbForAlig T slm s t M = lgln (exp (slm (length s) (length t)) * joint (pts T) (with_null s) t al).
Proof. intros T slm s t M al E L. unfold calcLgProbForAlig. rewrite E, L, Nat.eqb_refl. apply incr_ok, L. Qed.
Theorem score_put : forall T slm s t al, length al = length t -> (forall a, In a al -> a <= length s)%nat ->
  exists M, putAligVec (w_init (length s) (length t)) al = Some M /\ calcLgProbForAlig T slm s t M = lgln (exp (slm (length s) (length t)) * joint (pts T) (with_null s) t (map pred al)).
Proof.
  intros T slm s t al L A. destruct (put_get (length s) (length t) al L A) as (M & E & G). exists M. split; [exact E|]. apply score_alig; [exact G|now rewrite map_length].
Qed.
(** ---- stepwise computation *)
Lemma partial_step : forall T slen t s_ f,
  partialProbWithoutLen T slen s_ t (map f t) = map (fun w => f w + sumf (fun s => pts T s w) s_ * (1 / (INR slen + 1))) t.
Proof.
  intros T slen t. induction s_ as [|s s_ IH]; intros f; unfold partialProbWithoutLen in *; cbn [fold_left sumf].
  - apply map_ext. intros. lra.
  - assert (E : map (fun q => fst q + pts T s (snd q) * (1 / (INR slen + 1))) (combine (map f t) t) = map (fun w => f w + pts T s w * (1 / (INR slen + 1))) t).
    { clear. induction t as [|w t IH]; [reflexivity|]. cbn. now rewrite IH. }
    rewrite E, IH. apply map_ext. intros. lra.
Qed.
Theorem stepwise : forall T s t chunks, concat chunks = s ->
  lpFromPpInfo (fold_left (fun pp c => partialProbWithoutLen T (length s) c t pp) chunks (initPpInfo T (length s) t)) = lgln (total (pts T) (with_null s) t).
Proof.
  intros T s t chunks Hc. set (k := 1 / (INR (length s) + 1)).
  assert (G : forall cs f, fold_left (fun pp c => partialProbWithoutLen T (length s) c t pp) cs (map f t) = map (fun w => f w + sumf (fun x => pts T x w) (concat cs) * k) t).
  { induction cs as [|c cs IH]; intros f; cbn [fold_left concat]; [apply map_ext; intros; cbn; lra|].
    rewrite partial_step, IH. apply map_ext. intros w. rewrite sumf_app. unfold k. lra. }
  unfold initPpInfo. rewrite G, Hc. unfold lpFromPpInfo. rewrite (fin_lgln 0), exp_0.
  rewrite (fold_lg (fun x => x)).
  - f_equal. rewrite total_prod by discriminate. rewrite Rmult_1_l. change (length (with_null s)) with (S (length s)).
    assert (P : 0 < INR (S (length s))) by (apply lt_0_INR; lia).
    rewrite prodf_map. transitivity (prodf (fun w => / INR (S (length s)) * sumf (fun x => pts T x w) (with_null s)) t).
    + apply prodf_ext. intros w _. unfold with_null, k. cbn [sumf]. rewrite S_INR in *. field. lra.
    + rewrite prodf_mult, prodf_const. f_equal. rewrite pow_inv. reflexivity.
  - lra.
  - intros x Hx. rewrite in_map_iff in Hx. destruct Hx as (w & <- & _). unfold k.
    assert (0 < 1 / (INR (length s) + 1)) by (apply Rdiv_lt_0_compat; [lra|]; pose proof (pos_INR (length s)); lra).
    rewrite Rplus_0_l. apply Rplus_le_le_0_compat; apply Rmult_le_pos; [apply pts_nonneg|lra|apply sumf_nonneg; intros; apply pts_nonneg|lra].
Qed.
